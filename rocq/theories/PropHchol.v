(** * Property C55: updates of the lower triangular part and Cholesky factorizations of H-matrices *)
From Coq Require Import Arith Lia List Bool Ring NArith QArith Qcanon.
From Coq Require Import Reals Lra.
From Verif Require Import Fld Inst Ord OrdInst Prog Arr View Loop Line Spec Cluster Block BlockP Avector Amatrix AmatrixP AmatrixP2 Rkmatrix RkSpec RkP Factor FactorSpec FactorP Chol CholSpec CholP2 Qr QrSpec Lr LrP CholInst QrInst
  CopSpec OrthoP Htrunc HtSpec HtP HtInst Hmatrix HmSpec HmP HlibSpec Harith HaSpec HaP HaP2 HaP3 HaddSpec HmvP Hadd HaddP Hmul HmulP3 HmulP4 HmulP5 ParP Hfac HfacSpec HfacP2 HfacP3 HfacP4 HfacP5
  Hchol HcholP HcholP2 HcholP4 HcholP5 PropHm PropHarith PropHadd PropHfac.
Import ListNotations.
Local Open Scope nat_scope.

Section Chol.
Context {K : fops} {G : ofops} (L : field_laws K) (O : qops K) (H : qlaws O) (HZ : exact_zero O).
Context (orth : Prop) (good : nat -> (nat -> K) -> Prop) (chosen : nat -> (nat -> K) -> nat -> Prop).
Context (svd : mat -> vec -> mat -> mat -> prog K unit) (rank : vec -> prog K nat) (Hsvd : svd_ok orth good (fun _ _ => True) svd) (Hrank : rank_ok good chosen rank).
Context (Hless : forall n s k, chosen n s k -> forall l, k <= l < n -> s l = f0).
Local Notation hmx := (hmatrix G).
Let RL : ring_laws K := fl_ring K L.
Implicit Types (m : mem K) (a x y z : hmx) (A D E F X Y Z : nat -> nat -> K).

(** The target of an update: a square H-matrix that can be changed *)
Definition target z Z m : Prop := hrep m z Z /\ hmut m z /\ hstd z /\ hpos z /\ hdiag z.

(** ** A dense matrix or a low-rank matrix is added to the lower triangular part.  The structure of the
    target stays the same, and only its storage is changed.  The part above the diagonal may change. *)
Theorem C55_add_lower_amatrix_hmatrix_partial : forall alpha (a : mat) z m Z (f : nat -> nat -> K),
  fconj alpha = alpha -> target z Z m -> mval m a f -> mrows a = hrows z -> mcols a = hcols z -> disj (inm a) (hfp z) ->
  ends (add_lower_amatrix_hmatrix O svd rank alpha false a z) m (fun z' m' => exists E, hpost m z E z' m' /\
    forall i j, j <= i -> i < hrows z -> E i j = (Z i j + alpha * f i j)%F).
Proof.
  intros alpha a z m Z f Hal (H1 & H2 & H3 & H4 & H5) HV E1 E2 Hd. apply wp_ends. unfold add_lower_amatrix_hmatrix.
  eapply (wp_add_lower_am L O H HZ orth good chosen _ svd rank Hsvd Hrank (fun _ _ => Logic.I) Hless alpha z Hal z a (inm a) m Z f); try assumption.
  - eapply hlike_refl. exact H2.
  - split; [exact HV|]. split; [exact E1|]. split; [exact E2|]. intros c. tauto.
  - intros E z' m' HP HE. exists E. split; [exact HP|]. intros i j Hj Hi. apply HE; assumption.
Qed.
Theorem C55_add_lower_rkmatrix_hmatrix : forall alpha (r : rkm) z m Z E0,
  target z Z m -> rkrep m r E0 -> mrows (rk_A r) = hrows z -> mrows (rk_B r) = hcols z -> disj (inrk r) (hfp z) ->
  ends (add_lower_rkmatrix_hmatrix O svd rank alpha r z) m (fun z' m' => exists E, hpost m z E z' m' /\
    forall i j, j <= i -> i < hrows z -> E i j = (Z i j + alpha * E0 i j)%F).
Proof.
  intros alpha r z m Z E0 (H1 & H2 & H3 & H4 & H5) HV E1 E2 Hd. apply wp_ends. unfold add_lower_rkmatrix_hmatrix.
  eapply (wp_add_lower_rk L O H HZ orth good chosen _ svd rank Hsvd Hrank (fun _ _ => Logic.I) Hless alpha z z r (inrk r) m Z E0); try assumption.
  - eapply hlike_refl. exact H2.
  - split; [exact HV|]. split; [exact E1|]. split; [exact E2|]. intros c. tauto.
  - intros E z' m' HP HE. exists E. split; [exact HP|]. intros i j Hj Hi. apply HE; assumption.
Qed.

(** ** The lower triangular part of a product is added.  If only [x] is transposed, the function uses a
    wrong submatrix of [y]: see below. *)
Theorem C55_addmul_lower_hmatrix_partial : forall alpha (xt yt : bool) x y z m X Y Z, xt && negb yt = false -> fconj alpha = alpha ->
  hrep m x X -> hrep m y Y -> hstd x -> hstd y -> hpos x -> hpos y -> target z Z m ->
  hm_rc z = (if xt then hm_cc x else hm_rc x) -> hm_cc z = (if yt then hm_rc y else hm_cc y) ->
  (if xt then hm_rc x else hm_cc x) = (if yt then hm_cc y else hm_rc y) ->
  disj (inh x) (hfp z) -> disj (inh y) (hfp z) ->
  ends (addmul_lower_hmatrix O svd rank alpha xt yt x y z) m (fun z' m' => exists E, hpost m z E z' m' /\
    forall i j, j <= i -> i < hrows z ->
      E i j = (Z i j + alpha * sum (if xt then hrows x else hcols x) (fun q => tr xt X i q * tr yt Y q j))%F).
Proof.
  intros alpha xt yt x y z m X Y Z Ht Hal H1 H2 H3 H4 H5 H6 (H7 & H8 & H9 & H10 & H11) E1 E2 E3 Hd1 Hd2. apply wp_ends.
  eapply (wp_addmul_lower L O H HZ orth good chosen _ svd rank Hsvd Hrank (fun _ _ => Logic.I) Hless alpha xt yt Hal Ht x y z m X Y Z); try assumption.
  intros E z' m' HP HE. exists E. split; [exact HP|]. intros i j Hj Hi. rewrite (HE i j Hj Hi). unfold prodf, tcc, hrows, hcols. destruct xt; reflexivity.
Qed.

(** ** The Cholesky factorization of an H-matrix whose lower triangular part represents a positive
    definite matrix: the product of the lower triangle of the result and its adjoint is the matrix. *)
Theorem C55_choldecomp_hmatrix : forall a A m, target a A m -> (N.of_nat (hrows a) < 2 ^ 32)%N ->
  (forall i, i < hrows a -> fconj (A i i) = A i i) -> posdef O (hrows a) (herm A) ->
  ends (choldecomp_hmatrix O svd rank a) m (fun a' m' => exists E, hpost m a E a' m' /\
    (forall i, i < hrows a -> nonpos O (E i i) = false /\ fconj (E i i) = E i i) /\
    forall i j, i < hrows a -> j < hrows a -> mmul (hrows a) (tripart true false E) (tr true (tripart true false E)) i j = herm A i j).
Proof.
  intros a A m (H1 & H2 & H3 & H4 & H5) H6 H7 H8. destruct (chol_exists L O H (hrows a) A) as (F & HF & Hpo); [|exact H6|exact H7|exact H8|].
  - apply (H4 a). destruct a; cbn; auto.
  - apply wp_ends. eapply (wp_chol_h L O H HZ orth good chosen _ svd rank Hsvd Hrank (fun _ _ => Logic.I) Hless a a m A F); try assumption.
    + eapply hlike_refl. exact H2.
    + intros E a' m' HP HE. exists E. split; [exact HP|].
      assert (HC : cholpost O (hrows a) A E 0).
      { left. split; [reflexivity|]. split.
        - apply (scc_sinv L). intros i j Hj Hi. rewrite (HF i j Hj Hi). unfold scc. apply sum_ext. intros r _. f_equal; [|f_equal];
            (match goal with |- tripart _ _ _ ?u _ = _ => destruct (Nat.le_gt_cases (0 + r) u) as [Hl|Hl]; [rewrite !loc_at by exact Hl; symmetry; apply HE; [exact Hl|lia]|rewrite !loc_0 by exact Hl; reflexivity] end).
        - intros i Hi. rewrite HE by (try lia; exact Hi). apply Hpo, Hi. }
      destruct (cholpost_0 L O (ql_r O H) _ _ _ HC) as (C1 & C2 & _). split; [exact C2|exact C1].
Qed.

(** Factorization followed by the solution of [A x' = x], for the positive definite matrix [A] in the
    original numbering.  Only the lower triangular part of the H-matrix has to represent it. *)
Theorem C55_chol_solve : forall idx a (x : vec) (g : nat -> nat) A D (b : nat -> K) m, target a D m -> (N.of_nat (hrows a) < 2 ^ 32)%N ->
  (forall i j, j <= i -> i < hrows a -> D i j = A (g i) (g j)) -> (forall i j, fconj (A i j) = A j i) ->
  posdef O (hrows a) (fun i j => A (g i) (g j)) ->
  ready idx a x g b m -> disj (hfp a) (inv x) ->
  ends (a' <- choldecomp_hmatrix O svd rank a ;; cholsolve_hmatrix_avector idx a' x) m (fun _ m' =>
    (exists x' : nat -> K, vval m' x x' /\ forall i, i < hrows a -> mvec (hrows a) A x' i = b i) /\
    forall c, fst c < next m -> ~ hfp a c -> ~ inv x c -> get m' c = get m c).
Proof.
  intros idx a x g A D b m HT H6 HD HA Hpd (R1 & R2 & R3 & R4 & R5 & _) Hdj. pose proof HT as (H1 & H2 & H3 & H4 & H5).
  assert (EA : forall i j, i < hrows a -> j < hrows a -> herm D i j = A (g i) (g j)).
  { intros i j Hi Hj. unfold herm. destruct (Nat.leb_spec j i); [apply HD; assumption|]. rewrite HD by lia. apply HA. }
  destruct (C55_choldecomp_hmatrix a D m HT H6) as (a' & m1 & Hrun & F & HP & Hnz & HF).
  { intros i Hi. rewrite HD by lia. apply HA. }
  { intros v Hv. rewrite <- (Hpd v Hv). f_equal. unfold quad, dot, mvec. apply sum_ext. intros i Hi. f_equal. apply sum_ext. intros j Hj. rewrite EA by assumption. reflexivity. }
  pose proof HP as (P1 & P2 & P3 & P4). pose proof P4 as (M1 & M2 & M3 & M4 & M5).
  assert (Hi : forall c, inv x c -> fst c < next m) by (intros c Hc; apply inv_blk in Hc; lia).
  assert (Hd' : disj (hfp a') (inv x)).
  { intros c Hc Hx. apply (moves_disj m (hfp a) (hfp a') (inv x) m1 P4 Hi) with (a := c); try assumption. intros d X1 X2. exact (Hdj d X2 X1). }
  assert (Er : hm_rc a' = hm_rc a) by (destruct P3; reflexivity). assert (Ehr : hrows a' = hrows a) by (unfold hrows; rewrite Er; reflexivity).
  assert (Hs' : hstd a') by (eapply hstd_like; eassumption). pose proof (hdiag_like a H5 a' P3) as Hdg.
  destruct (C50_cholsolve_hmatrix L idx a' x g A F b m1) as (u & m2 & Hrun2 & (x' & X1 & X2) & HK).
  - unfold ready. rewrite Er, Ehr. split; [exact R1|]. split; [exact R2|]. split.
    { intros i Hi'. rewrite <- (R3 i Hi'). apply M4; [cbn; lia|]. intros Hc. apply (Hdj _ Hc). apply inv_va. exact Hi'. }
    split; [lia|]. split; [intros c Hc; apply M3, inh_hfp, Hc|]. intros c Hc. apply Hd', inh_hfp, Hc.
  - apply hrep_htri; assumption.
  - rewrite Ehr. intros i Hi'. apply (pos_n0 O (ql_r O H)), Hnz, Hi'.
  - rewrite Ehr. intros p q Hp Hq. rewrite HF by assumption. symmetry. apply EA; assumption.
  - exists u, m2. split; [rewrite run_bind, Hrun; exact Hrun2|]. split.
    + exists x'. split; [exact X1|]. rewrite Ehr in X2. exact X2.
    + intros c Hc Hn1 Hn2. destruct HK as [_ HK]. rewrite (HK c Hn2). apply M4; assumption.
Qed.
End Chol.

(** ** The product of the adjoint of [x] and [y]: for 2 x 2 H-matrices with four dense leaves all
    hypotheses hold, and an assertion fails. *)
Definition zh (o : nat) : hmatrix QcO := HM zroot zroot None None (Some [zl 0 0 o; zl 1 0 (o + 1); zl 0 1 (o + 2); zl 1 1 (o + 3)]) 2 2 5.
Definition zhm : list (list Qcf) := map (map zq) [[1]; [2]; [3]; [4]; [5]; [6]; [7]; [8]; [0]; [0]; [0]; [0]]%Z.
Definition zhD (o p q : nat) : Qcf := mof zhm (Mat (o + p + 2 * q) 0 1 1 1 true) 0 0.
Lemma zh_rep o : o = 0 \/ o = 4 \/ o = 8 -> hrep (mem_of zhm) (zh o) (zhD o).
Proof.
  intros Ho. eapply (hrep_super _ _ _ _ 2 2 _ (fun _ => 1) (fun _ => 1)); try reflexivity; try lia.
  - intros [|[|i]] [|[|j]] s Hi Hj Hs; try lia; cbn in Hs; injection Hs as <-; split; reflexivity.
  - intros [|[|i]] [|[|j]] s Hi Hj Hs; try lia; cbn in Hs; injection Hs as <-; constructor; try reflexivity;
      (eapply mval_ext; [apply mval_of; destruct Ho as [->|[->| ->]]; reflexivity|]); intros p q Hp Hq; cbn in Hp, Hq; destruct p, q; try lia; destruct Ho as [->|[->| ->]]; reflexivity.
Qed.
Lemma zh_fp o a : hfp (zh o) a -> o <= fst a < 4 + o.
Proof.
  unfold zh. rewrite hfp_super. intros (k & s & Hk & Ha). destruct k as [|[|[|[|k]]]]; cbn [nth_error] in Hk; [| | | |destruct k; discriminate]; injection Hk as <-;
    apply hfp_full in Ha; apply inm_blk in Ha; cbn in Ha; lia.
Qed.
Lemma zh_mut o : o + 4 <= 12 -> hmut (mem_of zhm) (zh o).
Proof.
  intros Ho. constructor.
  - intros s Hs. cbn in Hs. decompose [or] Hs; try contradiction; subst s; (constructor; [cbn; lia|cbn; lia|unfold mwf; cbn; lia]).
  - intros i k s t Hs Ht Hne a Ha Hb. destruct i as [|[|[|[|i]]]]; cbn in Hs; [| | | |destruct i; discriminate]; injection Hs as <-;
      (destruct k as [|[|[|[|k]]]]; cbn in Ht; [| | | |destruct k; discriminate]); injection Ht as <-; apply hfp_full in Ha; apply hfp_full in Hb; apply inm_blk in Ha, Hb; cbn in *; try congruence; lia.
Qed.
Lemma zh_std o : hstd (zh o).
Proof.
  intros s l Hs Hl. cbn in Hs. decompose [or] Hs; try contradiction; subst s; try discriminate. cbn in Hl. injection Hl as <-. split; [reflexivity|]. cbn [hm_rsons hm_csons hm_rc hm_cc zh].
  intros [|[|i]] [|[|j]] t Hi Hj Ht; try lia; cbn in Ht; injection Ht as <-; split; right; cbn; split; try lia; split; reflexivity.
Qed.
Lemma zh_pos o : hpos (zh o).
Proof. intros s Hs. cbn in Hs. decompose [or] Hs; try contradiction; subst s; cbn; lia. Qed.
Lemma zh_diag o : hdiag (zh o).
Proof. apply hdiag_super. intros [|[|j]] s Hj Hs; try lia; cbn in Hs; injection Hs as <-; apply hdiag_full. Qed.
Theorem C55_addmul_lower_hmatrix_refuted : forall (O : qops Qcf) svd rank, exists alpha (x y z : hmatrix QcO) (m : mem Qcf) X Y Z, fconj alpha = alpha /\
  hrep m x X /\ hrep m y Y /\ hstd x /\ hstd y /\ hpos x /\ hpos y /\ target z Z m /\
  hm_rc z = hm_cc x /\ hm_cc z = hm_cc y /\ hm_rc x = hm_rc y /\ disj (inh x) (hfp z) /\ disj (inh y) (hfp z) /\
  fails (addmul_lower_hmatrix O svd rank alpha true false x y z) m EAssert.
Proof.
  intros O svd rank. exists (f1 : Qcf), (zh 0), (zh 4), (zh 8), (mem_of zhm), (zhD 0), (zhD 4), (zhD 8).
  split; [reflexivity|]. split; [apply zh_rep; auto|]. split; [apply zh_rep; auto|]. split; [apply zh_std|]. split; [apply zh_std|]. split; [apply zh_pos|]. split; [apply zh_pos|].
  split. { split; [apply zh_rep; auto|]. split; [apply zh_mut; lia|]. split; [apply zh_std|]. split; [apply zh_pos|apply zh_diag]. }
  split; [reflexivity|]. split; [reflexivity|]. split; [reflexivity|].
  split; [intros c Hc Hd; apply inh_hfp, zh_fp in Hc; apply zh_fp in Hd; lia|]. split; [intros c Hc Hd; apply inh_hfp, zh_fp in Hc; apply zh_fp in Hd; lia|].
  unfold fails. assert (X : match run (addmul_lower_hmatrix O svd rank (f1 : Qcf) true false (zh 0) (zh 4) (zh 8)) (mem_of zhm) with Err EAssert => true | _ => false end = true) by (vm_compute; reflexivity).
  destruct (run _ _) as [|[]]; try discriminate. reflexivity.
Qed.

(** ** The hypotheses can be met *)
(** The matrix with the lower triangular part [[4] [2 2] [4 5 14]], stored as in PropHadd.v.  The entries
    above the diagonal are not used.  The vector is in block 5. *)
Definition cm : list (list Rf) := map (map IZR) [[4]; [1; 2]; [2]; [9; 9]; [2; 5; 77; 14]; [1; 2; 3]]%Z.
Definition cD (p q : nat) : Rf :=
  if p <? 1 then (if q <? 1 then mof cm (yf 0 0 0) p q else mof cm (yf 0 0 1) p (q - 1))
  else (if q <? 1 then lowrank 1 (mof cm (yA 0)) (mof cm (yB 0)) (p - 1) q else mof cm (yf 0 1 1) (p - 1) (q - 1)).
Lemma ch_rep : hrep (mem_of cm) (yh 0) cD.
Proof.
  eapply (hrep_super _ _ _ _ 2 2 _ (fun i => nth i [1; 2] 0) (fun i => nth i [1; 2] 0)); try reflexivity; try lia.
  - intros [|[|i]] [|[|j]] s Hi Hj Hs; try lia; cbn in Hs; injection Hs as <-; split; reflexivity.
  - intros [|[|i]] [|[|j]] s Hi Hj Hs; try lia; cbn in Hs; injection Hs as <-; constructor; try reflexivity.
    + eapply mval_ext; [apply mval_of; reflexivity|]. intros p q Hp Hq. cbn in Hp, Hq. destruct p, q; [reflexivity|lia..].
    + eapply mval_ext; [apply mval_of; reflexivity|]. intros p q Hp Hq. cbn in Hp, Hq. destruct p; [|lia]. cbn [nsum nth Nat.add]. unfold cD.
      cbn [Nat.ltb Nat.leb Nat.sub]. rewrite Nat.sub_0_r. reflexivity.
    + apply (rkrep_ext _ _ (lowrank 1 (mof cm (yA 0)) (mof cm (yB 0)))).
      { exists (mof cm (yA 0)), (mof cm (yB 0)). split; [apply mval_of; reflexivity|]. split; [apply mval_of; reflexivity|]. repeat split; auto. }
      intros p q Hp Hq. cbn in Hp, Hq. destruct q; [|lia]. cbn [nsum nth Nat.add]. unfold cD. cbn [Nat.ltb Nat.leb Nat.sub]. rewrite Nat.sub_0_r. reflexivity.
    + eapply mval_ext; [apply mval_of; reflexivity|]. intros p q Hp Hq. cbn [nsum nth Nat.add]. unfold cD. cbn [Nat.ltb Nat.leb Nat.sub]. rewrite !Nat.sub_0_r. reflexivity.
Qed.
Lemma ch_mut : hmut (mem_of cm) (yh 0).
Proof.
  constructor.
  - intros s Hs. cbn [In] in Hs. decompose [or] Hs; try contradiction; subst s; (constructor; [cbn; lia|cbn; lia|]).
    + unfold mwf; cbn; lia.
    + unfold rkown, mwf; cbn [rk_A rk_B rk_k]. repeat split; try (cbn; lia); eapply mval_alloc, mval_of; reflexivity.
    + unfold mwf; cbn; lia.
    + unfold mwf; cbn; lia.
  - intros i k s t Hs Ht Hne a Ha Hb. destruct i as [|[|[|[|i]]]]; cbn [nth_error] in Hs; [| | | |destruct i; discriminate]; injection Hs as <-;
      (destruct k as [|[|[|[|k]]]]; cbn [nth_error] in Ht; [| | | |destruct k; discriminate]); injection Ht as <-; try congruence;
      first [apply hfp_full, inm_blk in Ha|apply hfp_rk in Ha; destruct Ha as [Ha|Ha]]; first [apply hfp_full, inm_blk in Hb|apply hfp_rk in Hb; destruct Hb as [Hb|Hb]]; cbn in Ha, Hb; lia.
Qed.
(** The Cholesky factor and the matrix in the original numbering *)
Definition cF (i j : nat) : Rf := nth j (nth i (map (map IZR) [[2; 0; 0]; [1; 1; 0]; [2; 3; 1]]%Z) []) (IZR 0).
Definition cA (i j : nat) : Rf := herm cD (xhgi i) (xhgi j).
Lemma cF_chol : cholpost (Rq (IZR 0)) 3 cD cF 0.
Proof.
  left. split; [reflexivity|]. split.
  - intros [|[|[|i]]] [|[|[|j]]] Hi Hj; try lia; unfold cD, cF, tripart, lowrank, mof; cbn; cbv [Nat.ltb Nat.leb Nat.eqb andb]; lra.
  - intros i Hi. split; [|reflexivity]. destruct i as [|[|[|i]]]; [| | |lia]; unfold cF; cbn; apply negb_false_iff, R_ltb_iff; lra.
Qed.

Example C55_hyps : let m := mem_of ym in let m' := mem_of cm in let x := Vec 5 0 3 true in
  target (yh 5) (yD 5) m /\ hm_rc (yh 5) = hm_cc (yh 5) /\
  mval m yx (mof ym yx) /\ mrows yx = hrows (yh 5) /\ mcols yx = hcols (yh 5) /\ disj (inm yx) (hfp (yh 5)) /\
  rkrep m yr (lowrank 1 (mof ym (rk_A yr)) (mof ym (rk_B yr))) /\ mrows (rk_A yr) = hrows (yh 5) /\ mrows (rk_B yr) = hcols (yh 5) /\ disj (inrk yr) (hfp (yh 5)) /\
  hrep m (yh 0) (yD 0) /\ hstd (yh 0) /\ hpos (yh 0) /\ hm_rc (yh 5) = hm_cc (yh 0) /\ hm_rc (yh 0) = hm_cc (yh 0) /\ disj (inh (yh 0)) (hfp (yh 5)) /\
  target (yh 0) cD m' /\ (N.of_nat (hrows (yh 0)) < 2 ^ 32)%N /\ (forall i, i < hrows (yh 0) -> fconj (cD i i) = cD i i) /\
  posdef (Rq (IZR 0)) (hrows (yh 0)) (herm cD) /\
  (forall i j, j <= i -> i < hrows (yh 0) -> cD i j = cA (xhg i) (xhg j)) /\ (forall i j, fconj (cA i j) = cA j i) /\
  posdef (Rq (IZR 0)) (hrows (yh 0)) (fun i j => cA (xhg i) (xhg j)) /\
  ready xhidx (yh 0) x xhg (vof cm x) m' /\ disj (hfp (yh 0)) (inv x).
Proof.
  cbv zeta. assert (E : forall i, i < 3 -> xhgi (xhg i) = i) by (intros [|[|[|i]]] Hi; try reflexivity; lia).
  assert (Hpd : posdef (Rq (IZR 0)) 3 (herm cD)) by (apply (cholpost_0 Rf_field (Rq (IZR 0)) (ql_r _ (Rq_laws (IZR 0) ltac:(lra))) 3 cD cF), cF_chol).
  split. { split; [apply yh_rep; auto|]. split; [apply yh_mut; auto|]. split; [apply yh_std|]. split; [apply yh_pos|apply yh_diag]. }
  split; [reflexivity|]. split; [apply mval_of; reflexivity|]. split; [reflexivity|]. split; [reflexivity|].
  split. { intros a Ha Hb; apply inm_blk in Ha; apply yh_fp in Hb; cbn in Ha; lia. }
  split; [apply y_rk; reflexivity|]. split; [reflexivity|]. split; [reflexivity|].
  split. { intros a [Ha|Ha] Hb; apply inm_blk in Ha; apply yh_fp in Hb; cbn in Ha; lia. }
  split; [apply yh_rep; auto|]. split; [apply yh_std|]. split; [apply yh_pos|]. split; [reflexivity|]. split; [reflexivity|].
  split. { intros a Ha Hb. apply yh_inh in Ha. apply yh_fp in Hb. lia. }
  split. { split; [exact ch_rep|]. split; [exact ch_mut|]. split; [apply yh_std|]. split; [apply yh_pos|apply yh_diag]. }
  split; [reflexivity|]. split; [reflexivity|]. split; [exact Hpd|].
  split. { intros i j Hj Hi. change (hrows (yh 0)) with 3 in Hi. unfold cA. rewrite !E by lia. unfold herm. destruct (Nat.leb_spec j i); [reflexivity|lia]. }
  split. { intros i j. unfold cA, herm. cbn [fconj Rf]. destruct (Nat.leb_spec (xhgi j) (xhgi i)), (Nat.leb_spec (xhgi i) (xhgi j)); try lia; try reflexivity. replace (xhgi i) with (xhgi j) by lia. reflexivity. }
  split. { intros v Hv. change (hrows (yh 0)) with 3 in *. rewrite <- (Hpd v Hv). reflexivity. }
  split. { split; [exact xh_perm|]. split; [reflexivity|]. split; [apply vval_of; reflexivity|]. split; [cbn; lia|]. split; [intros c Hc; apply yh_inh in Hc; cbn; lia|].
    intros c Hc Hd. apply yh_inh in Hc. apply inv_blk in Hd. cbn in Hd. lia. }
  intros c Hc Hd. apply yh_fp in Hc. apply inv_blk in Hd. cbn in Hd. lia.
Qed.

Print Assumptions C55_add_lower_amatrix_hmatrix_partial.
Print Assumptions C55_add_lower_rkmatrix_hmatrix.
Print Assumptions C55_addmul_lower_hmatrix_partial.
Print Assumptions C55_choldecomp_hmatrix.
Print Assumptions C55_chol_solve.
Print Assumptions C55_addmul_lower_hmatrix_refuted.
