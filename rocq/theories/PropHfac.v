(** * Property C54: triangular solves, triangular products and LR factorizations of H-matrices *)
From Coq Require Import Arith Lia List Bool Ring NArith.
From Coq Require Import Reals Lra.
From Verif Require Import Fld Inst Ord OrdInst Prog Arr View Loop Line Spec Cluster Block BlockP Avector Amatrix AmatrixP AmatrixP2 Rkmatrix RkSpec RkP Factor FactorSpec FactorP Chol CholSpec Qr QrSpec Lr LrP CholInst QrInst
  CopSpec OrthoP Htrunc HtSpec HtP HtInst Hmatrix HmSpec HmP HlibSpec Harith HaSpec HaP HaP2 HaP3 HaddSpec HmvP Hadd HaddP Hmul HmulP3 HmulP4 HmulP5 ParP Hfac HfacSpec HfacP2 HfacP3 HfacP4 HfacP5 PropHm PropHarith PropHadd.
Import ListNotations.
Local Open Scope nat_scope.

Section Fac.
Context {K : fops} {G : ofops} (L : field_laws K) (O : qops K) (H : qlaws O) (HZ : exact_zero O).
Context (orth : Prop) (good : nat -> (nat -> K) -> Prop) (chosen : nat -> (nat -> K) -> nat -> Prop).
Context (svd : mat -> vec -> mat -> mat -> prog K unit) (rank : vec -> prog K nat) (Hsvd : svd_ok orth good (fun _ _ => True) svd) (Hrank : rank_ok good chosen rank).
Context (Hless : forall n s k, chosen n s k -> forall l, k <= l < n -> s l = f0).
Local Notation hmx := (hmatrix G).
Let RL : ring_laws K := fl_ring K L.
Implicit Types (m : mem K) (a x : hmx) (A D F X Y : nat -> nat -> K).

(** [x] can be changed and the triangle of [a] can be applied to it (or to its adjoint): they fit, and
    [x] is not stored in the triangle. *)
Definition triready (lower aunit xt : bool) a x D X m : Prop :=
  htri lower aunit m a D /\ hstd a /\ hpos a /\ (forall c, inh a c -> fst c < next m) /\
  hrep m x X /\ hmut m x /\ hstd x /\ hpos x /\ hm_cc a = (if xt then hm_cc x else hm_rc x) /\ disj (inh a) (hfp x).

Lemma tri_sizes (lower aunit xt : bool) a x D X m : triready lower aunit xt a x D X m -> csz (trc xt x) = hrows a /\ csz (tcc xt x) = (if xt then hrows x else hcols x).
Proof.
  intros (Ha & _ & _ & _ & _ & _ & _ & _ & E & _). assert (Ec : hm_rc a = hm_cc a) by (destruct Ha; reflexivity).
  unfold hrows, hcols. rewrite Ec, E. destruct xt; auto.
Qed.
Lemma tri_common (solve lower aunit t xt : bool) a x D X m : triready lower aunit xt a x D X m ->
  (negb solve && lower && negb t && xt = true -> hsqr x) -> (solve = true -> aunit = true \/ (forall i, i < hrows a -> D i i <> f0)) ->
  ends (tri_h O svd rank solve lower aunit t xt x a x) m (fun x' m' => exists Y, hpost m x Y x' m' /\
    tpost solve lower aunit t (hrows a) (if xt then hrows x else hcols x) D (tr xt X) (tr xt Y)).
Proof.
  intros HR Hs Hd. pose proof (tri_sizes _ _ _ _ _ _ _ _ HR) as [E1 E2]. destruct HR as (H1 & H2 & H3 & H4 & H5 & H6 & H7 & H8 & H9 & H10). apply wp_ends.
  eapply (wp_tri_h L O H HZ orth good chosen _ svd rank Hsvd Hrank (fun _ _ => Logic.I) Hless solve lower aunit t xt x a x m D (tr xt X)); try assumption.
  - eapply hlike_refl. exact H6.
  - eapply hrep_ext; [exact H5|]. intros i j _ _. apply (tr_tr RL).
  - intros E x' m' HT HP. rewrite E1, E2 in HT. exists (tr xt E). split; [exact HP|]. intros p c Hp Hc. specialize (HT p c Hp Hc). destruct solve.
    + rewrite <- HT. apply sum_ext. intros q _. rewrite (tr_tr RL). reflexivity.
    + rewrite (tr_tr RL). exact HT.
Qed.

(** Solving with the lower or upper triangle of an H-matrix, with or without unit diagonal, or with its
    adjoint, for an H-matrix or its adjoint as right-hand side: the matrix [x] is overwritten by the
    solution.  The structure of [x] is the same, and only its storage is changed. *)
Theorem C54_triangularinvmul_hmatrix : forall (lower aunit t xt : bool) a x D X m,
  triready lower aunit xt a x D X m -> (aunit = true \/ forall i, i < hrows a -> D i i <> f0) ->
  ends (triangularinvmul_hmatrix O svd rank lower aunit t a xt x) m (fun x' m' => exists Y, hpost m x Y x' m' /\
    forall i k, i < hrows a -> k < (if xt then hrows x else hcols x) ->
      sum (hrows a) (fun j => tr t (tripart lower aunit D) i j * tr xt Y j k)%F = tr xt X i k).
Proof.
  intros lower aunit t xt a x D X m HR Hd. apply (tri_common true lower aunit t xt a x D X m HR); [discriminate|auto].
Qed.

(** The same for a dense matrix. *)
Theorem C54_triangularinvmul_amatrix_hmatrix : forall (lower aunit t xt : bool) (a : mat) x D X m,
  let n := if xt then hcols x else hrows x in
  mrows a = n -> mcols a = n -> pval m a (intri lower aunit) D -> mblk a < next m ->
  hrep m x X -> hmut m x -> hstd x -> hpos x -> disj (inm a) (hfp x) ->
  (aunit = true \/ forall i, i < n -> D i i <> f0) ->
  ends (triangularinvmul_amatrix_hmatrix O svd rank lower aunit t a xt x) m (fun x' m' => exists Y, hpost m x Y x' m' /\
    forall i k, i < n -> k < (if xt then hrows x else hcols x) ->
      sum n (fun j => tr t (tripart lower aunit D) i j * tr xt Y j k)%F = tr xt X i k).
Proof.
  intros lower aunit t xt a x D X m n Er Ec Ha Hn Hx Hm Hs Hp Hdj Hd. unfold triangularinvmul_amatrix_hmatrix.
  set (h := HM (trc xt x) (trc xt x) None (Some a) None 0 0 0 : hmx).
  assert (En : n = hrows h) by (unfold n, h, hrows, hcols; destruct xt; reflexivity).
  assert (Hin : forall c, inh h c -> inm a c).
  { intros c Hc. inversion Hc; subst; cbn in *; try discriminate. congruence. }
  destruct (Hp x) as [P1 P2]; [destruct x; cbn; auto|]. assert (Hn0 : 0 < n) by (unfold n; destruct xt; assumption).
  rewrite En in *. apply C54_triangularinvmul_hmatrix; [|exact Hd].
  split; [apply htri_full; [exact Er|exact Ec|exact Ha]|]. split.
  { intros s l Hs' Hl. cbn in Hs'. destruct Hs' as [<-|[]]. discriminate. }
  split; [intros s Hs'; cbn in Hs'; destruct Hs' as [<-|[]]; split; exact Hn0|].
  split; [intros c Hc; apply Hin, inm_blk in Hc; lia|]. repeat (split; [assumption|]).
  split; [unfold h; destruct xt; reflexivity|]. intros c Hc. apply Hdj, Hin, Hc.
Qed.

(** Multiplication by the triangle.  One of the functions contains a wrong assertion: see below. *)
Theorem C54_triangularmul_hmatrix_partial : forall (lower aunit t xt : bool) a x D X m,
  triready lower aunit xt a x D X m -> (lower = true -> t = false -> xt = true -> hsqr x) ->
  ends (triangularmul_hmatrix O svd rank lower aunit t a xt x) m (fun x' m' => exists Y, hpost m x Y x' m' /\
    forall i k, i < hrows a -> k < (if xt then hrows x else hcols x) ->
      tr xt Y i k = sum (hrows a) (fun j => tr t (tripart lower aunit D) i j * tr xt X j k)%F).
Proof.
  intros lower aunit t xt a x D X m HR Hs. apply (tri_common false lower aunit t xt a x D X m HR); [|discriminate].
  destruct lower, t, xt; cbn; try discriminate. auto.
Qed.
(** For the adjoint of [x], the product by a lower triangle fails if the numbers of block rows and block
    columns of [x] are different, although the block columns of [x] match those of [a]: the number of
    block rows is checked. *)
Theorem C54_triangularmul_refuted : forall (aunit : bool) a x m,
  hm_rc a = hm_cc a -> hm_cc a = hm_cc x -> hm_f x = None -> hm_r x = None -> hm_f a = None ->
  hm_rsons a = hm_csons a -> hm_csons x = hm_rsons a -> hm_rsons x <> hm_csons x ->
  fails (triangularmul_hmatrix O svd rank true aunit false a true x) m EAssert.
Proof.
  intros aunit a x m E1 E2 E3 E4 E5 E6 E7 E8. unfold triangularmul_hmatrix, fails. destruct x as [rc cc r f so rs cs ds]. cbn in E2, E3, E4, E7, E8. subst f r.
  cbn [tri_h trc hm_rc hm_cc hm_f hm_r]. rewrite E1, E2, !cp_eqb_refl. cbn [passert bind]. rewrite E5, E6, Nat.eqb_refl. cbn [passert bind negb andb hm_rsons].
  rewrite <- E6, <- E7. apply Nat.eqb_neq in E8. rewrite E8. reflexivity.
Qed.

(** The LR factorization of an H-matrix whose leading blocks are regular: the product of the unit lower
    and the upper triangle of the result is the matrix. *)
Theorem C54_lrdecomp_hmatrix : forall a A m,
  hrep m a A -> hmut m a -> hstd a -> hpos a -> hdiag a -> (N.of_nat (hrows a) < 2 ^ 32)%N ->
  (forall j, j <= hrows a -> regular j A) ->
  ends (lrdecomp_hmatrix O svd rank a) m (fun a' m' => exists F, hpost m a F a' m' /\
    (forall i, i < hrows a -> F i i <> f0) /\
    forall i j, i < hrows a -> j < hrows a -> mmul (hrows a) (tripart true true F) (tripart false false F) i j = A i j).
Proof.
  intros a A m H1 H2 H3 H4 H5 H6 H7. destruct (lr_exists L (hrows a) A) as (F & HF & Hnz); [|exact H6|exact H7|].
  - apply (H4 a). destruct a; cbn; auto.
  - apply wp_ends. eapply (wp_lr_h L O H HZ orth good chosen _ svd rank Hsvd Hrank (fun _ _ => Logic.I) Hless a a m A F); try assumption.
    + eapply hlike_refl. exact H2.
    + intros a' m' HP. exists F. split; [exact HP|]. split; [exact Hnz|]. intros i j Hi Hj. apply (lrinv_prod L); assumption.
Qed.

(** Factorization followed by the solution of [A x' = x] or [A^* x' = x], for the matrix [A] in the
    original numbering. *)
Theorem C54_lr_solve : forall idx (t : bool) a (x : vec) (g : nat -> nat) A (b : nat -> K) m,
  hrep m a (fun i j => A (g i) (g j)) -> hmut m a -> hstd a -> hpos a -> hdiag a -> (N.of_nat (hrows a) < 2 ^ 32)%N ->
  (forall j, j <= hrows a -> regular j (fun i j => A (g i) (g j))) ->
  ready idx a x g b m -> disj (hfp a) (inv x) ->
  ends (a' <- lrdecomp_hmatrix O svd rank a ;; lrsolve_hmatrix_avector idx t a' x) m (fun _ m' =>
    (exists x' : nat -> K, vval m' x x' /\ forall i, i < hrows a -> mvec (hrows a) (tr t A) x' i = b i) /\
    forall c, fst c < next m -> ~ hfp a c -> ~ inv x c -> get m' c = get m c).
Proof.
  intros idx t a x g A b m H1 H2 H3 H4 H5 H6 H7 (R1 & R2 & R3 & R4 & R5 & _) Hdj.
  destruct (C54_lrdecomp_hmatrix a _ m H1 H2 H3 H4 H5 H6 H7) as (a' & m1 & Hrun & F & HP & Hnz & HF).
  pose proof HP as (P1 & P2 & P3 & P4). pose proof P4 as (M1 & M2 & M3 & M4 & M5).
  assert (Hi : forall c, inv x c -> fst c < next m) by (intros c Hc; apply inv_blk in Hc; lia).
  assert (Hd' : disj (hfp a') (inv x)).
  { intros c Hc Hx. apply (moves_disj m (hfp a) (hfp a') (inv x) m1 P4 Hi) with (a := c); try assumption. intros d X1 X2. exact (Hdj d X2 X1). }
  assert (Er : hm_rc a' = hm_rc a) by (destruct P3; reflexivity). assert (Ehr : hrows a' = hrows a) by (unfold hrows; rewrite Er; reflexivity).
  assert (Hs' : hstd a') by (eapply hstd_like; eassumption). pose proof (hdiag_like a H5 a' P3) as Hdg.
  destruct (C50_lrsolve_hmatrix L idx t a' x g A F b m1) as (u & m2 & Hrun2 & (x' & X1 & X2) & HK).
  - unfold ready. rewrite Er, Ehr. split; [exact R1|]. split; [exact R2|]. split.
    { intros i Hi'. rewrite <- (R3 i Hi'). apply M4; [cbn; lia|]. intros Hc. apply (Hdj _ Hc). apply inv_va. exact Hi'. }
    split; [lia|]. split; [intros c Hc; apply M3, inh_hfp, Hc|]. intros c Hc. apply Hd', inh_hfp, Hc.
  - apply hrep_htri; assumption.
  - apply hrep_htri; assumption.
  - rewrite Ehr. exact Hnz.
  - rewrite Ehr. intros p q Hp Hq. symmetry. apply HF; assumption.
  - exists u, m2. split; [rewrite run_bind, Hrun; exact Hrun2|]. split.
    + exists x'. split; [exact X1|]. rewrite Ehr in X2. exact X2.
    + intros c Hc Hn1 Hn2. destruct HK as [_ HK]. rewrite (HK c Hn2). apply M4; assumption.
Qed.
End Fac.

(** The hypotheses hold for the 2 x 2 block matrices of PropHadd.v, which have dense and low-rank
    leaves: the matrix [yh 5] is [[2 6 7] [21 1 3] [7 2 4]], and [yh 0] is the right-hand side or the
    triangular matrix; the vector is in block 10. *)
Lemma yh_diag o : hdiag (yh o).
Proof. apply hdiag_super. intros [|[|j]] s Hj Hs; try lia; cbn in Hs; injection Hs as <-; apply hdiag_full. Qed.
Definition yFl : list (list R) :=
  [[IZR 2; IZR 6; IZR 7]; [Rdiv (IZR 21) (IZR 2); IZR (-62); Rdiv (IZR (-141)) (IZR 2)]; [Rdiv (IZR 7) (IZR 2); Rdiv (IZR 19) (IZR 62); Rdiv (IZR 137) (IZR 124)]].
Definition yF (i j : nat) : Rf := nth j (nth i yFl []) (IZR 0).
Lemma yF_lr : lrinv 3 3 yF (yD 5).
Proof.
  intros [|[|[|i]]] [|[|[|j]]] Hi Hj; try lia; unfold yD, yF, yFl, tripart, lowrank, mof, get, mem_of; cbn; cbv [Nat.ltb Nat.leb Nat.eqb andb]; lra.
Qed.
(** The same matrix in the original numbering *)
Definition yP (i j : nat) : Rf := yD 5 (xhgi i) (xhgi j).
Lemma yP_lr : lrinv 3 3 yF (fun i j => yP (xhg i) (xhg j)).
Proof.
  assert (E : forall i, i < 3 -> xhgi (xhg i) = i) by (intros [|[|[|i]]] Hi; try reflexivity; lia).
  intros i j Hi Hj. unfold yP. rewrite (E i Hi), (E j Hj). apply yF_lr; assumption.
Qed.
Lemma yF_nz i : i < 3 -> yF i i <> f0.
Proof. intros Hi. destruct i as [|[|[|i]]]; [| | |lia]; unfold yF, yFl; cbn; lra. Qed.
Lemma yh_inh o a : inh (yh o) a -> o <= fst a < 5 + o.
Proof. intros Ha. apply yh_fp, inh_hfp, Ha. Qed.
Lemma Rf_field : field_laws Rf.
Proof. exact (proj1 C52_hyps). Qed.

Example C54_hyps : let m := mem_of ym in let x := Vec 10 0 3 true in
  triready true true false (yh 0) (yh 5) (yD 0) (yD 5) m /\ triready false false true (yh 5) (yh 0) (yD 5) (yD 0) m /\ hsqr (yh 0) /\
  (forall i, i < hrows (yh 5) -> yD 5 i i <> f0) /\
  hrep m (yh 5) (yD 5) /\ hmut m (yh 5) /\ hstd (yh 5) /\ hpos (yh 5) /\ hdiag (yh 5) /\ (N.of_nat (hrows (yh 5)) < 2 ^ 32)%N /\
  (forall j, j <= hrows (yh 5) -> regular j (yD 5)) /\
  hrep m (yh 5) (fun i j => yP (xhg i) (xhg j)) /\ (forall j, j <= hrows (yh 5) -> regular j (fun i j => yP (xhg i) (xhg j))) /\
  ready xhidx (yh 5) x xhg (vof ym x) m /\ disj (hfp (yh 5)) (inv x).
Proof.
  cbv zeta. assert (X : forall o, o = 0 \/ o = 5 -> forall lower aunit : bool, htri lower aunit (mem_of ym) (yh o) (yD o)).
  { intros o Ho lower aunit. apply hrep_htri; [apply yh_diag|apply yh_rep, Ho|apply yh_std]. }
  split. { split; [apply X; auto|]. split; [apply yh_std|]. split; [apply yh_pos|]. split; [intros c Hc; apply yh_inh in Hc; cbn; lia|]. split; [apply yh_rep; auto|]. split; [apply yh_mut; auto|].
    split; [apply yh_std|]. split; [apply yh_pos|]. split; [reflexivity|]. intros c Hc Hd. apply yh_inh in Hc. apply yh_fp in Hd. lia. }
  split. { split; [apply X; auto|]. split; [apply yh_std|]. split; [apply yh_pos|]. split; [intros c Hc; apply yh_inh in Hc; cbn; lia|]. split; [apply yh_rep; auto|]. split; [apply yh_mut; auto|].
    split; [apply yh_std|]. split; [apply yh_pos|]. split; [reflexivity|]. intros c Hc Hd. apply yh_inh in Hc. apply yh_fp in Hd. lia. }
  split. { intros s l Hs Hl. cbn in Hs. decompose [or] Hs; subst; try contradiction; try discriminate. reflexivity. }
  split. { intros [|[|[|i]]] Hi; try (cbn in Hi; lia); unfold yD, lowrank, mof; cbn; cbv [Nat.ltb Nat.leb]; lra. }
  split; [apply yh_rep; auto|]. split; [apply yh_mut; auto|]. split; [apply yh_std|]. split; [apply yh_pos|]. split; [apply yh_diag|]. split; [reflexivity|].
  split. { intros j Hj. cbn in Hj. apply (lrinv_regular Rf_field j yF); [|intros i Hi; apply yF_nz; lia]. apply (lrinv_lead Rf_field 3 3 j); [exact yF_lr|exact Hj|exact Hj]. }
  split. { eapply hrep_ext; [apply (yh_rep 5); auto|]. intros i j Hi Hj. unfold yP. destruct i as [|[|[|i]]], j as [|[|[|j]]]; try reflexivity; cbn in Hi, Hj; lia. }
  split. { intros j Hj. cbn in Hj. apply (lrinv_regular Rf_field j yF); [|intros i Hi; apply yF_nz; lia]. apply (lrinv_lead Rf_field 3 3 j); [exact yP_lr|exact Hj|exact Hj]. }
  split. { split; [exact xh_perm|]. split; [reflexivity|]. split; [apply vval_of; reflexivity|]. split; [cbn; lia|]. split; [intros c Hc; apply yh_inh in Hc; cbn; lia|].
    intros c Hc Hd. apply yh_inh in Hc. apply inv_blk in Hd. cbn in Hd. lia. }
  intros c Hc Hd. apply yh_fp in Hc. apply inv_blk in Hd. cbn in Hd. lia.
Qed.

(** A matrix with one block row and two block columns: all hypotheses of the theorem about products
    hold, apart from the one about the numbers of block rows and columns. *)
Definition yw : hmatrix QcO := HM y0 yt None None (Some [HM y0 y0 None (Some (Mat 13 0 1 1 1 true)) None 0 0 1; HM y0 y1 None (Some (Mat 15 0 1 1 2 true)) None 0 0 1]) 1 2 3.
Definition ywD (p q : nat) : Rf := if q <? 1 then mof ym (Mat 13 0 1 1 1 true) p q else mof ym (Mat 15 0 1 1 2 true) p (q - 1).
Example C54_refuted_hyps : let m := mem_of ym in
  triready true false true (yh 0) yw (yD 0) ywD m /\
  hm_rc (yh 0) = hm_cc (yh 0) /\ hm_cc (yh 0) = hm_cc yw /\ hm_f yw = None /\ hm_r yw = None /\ hm_f (yh 0) = None /\
  hm_rsons (yh 0) = hm_csons (yh 0) /\ hm_csons yw = hm_rsons (yh 0) /\ hm_rsons yw <> hm_csons yw.
Proof.
  cbv zeta. split; [|repeat split; cbn; lia].
  split; [apply hrep_htri; [apply yh_diag|apply yh_rep; auto|apply yh_std]|]. split; [apply yh_std|]. split; [apply yh_pos|]. split; [intros c Hc; apply yh_inh in Hc; cbn; lia|].
  split. { eapply (hrep_super _ _ _ _ 1 2 _ (fun _ => 1) (fun j => nth j [1; 2] 0)); try reflexivity; try lia.
    - intros [|i] [|[|j]] s Hi Hj Hs; try lia; cbn in Hs; injection Hs as <-; split; reflexivity.
    - intros [|i] [|[|j]] s Hi Hj Hs; try lia; cbn in Hs; injection Hs as <-; constructor; try reflexivity; (eapply mval_ext; [apply mval_of; reflexivity|]);
        intros p q Hp Hq; cbn in Hp, Hq; cbn [nsum nth Nat.add]; unfold ywD; [destruct q; [reflexivity|lia]|]. cbn [Nat.ltb Nat.leb Nat.sub]. rewrite !Nat.sub_0_r. reflexivity. }
  assert (Hfp : forall c, hfp yw c -> 13 <= fst c).
  { intros c Hc. unfold yw in Hc. rewrite hfp_super in Hc. destruct Hc as (k & s & Hk & Hc). destruct k as [|[|k]]; cbn in Hk; [| |destruct k; discriminate]; injection Hk as <-; rewrite hfp_full in Hc; apply inm_blk in Hc; cbn in Hc; lia. }
  split. { apply hmut_super.
    - intros s [<-|[<-|[]]]; apply hmut_full; cbn; try lia; unfold mwf; cbn; lia.
    - intros i k s t Hs Ht Hik c Hc Hd. destruct i as [|[|i]], k as [|[|k]]; try lia; cbn in Hs, Ht; try (destruct i; discriminate); try (destruct k; discriminate); injection Hs as <-; injection Ht as <-;
        rewrite hfp_full in Hc, Hd; apply inm_blk in Hc, Hd; cbn in Hc, Hd; lia. }
  split. { intros s l Hs Hl. cbn in Hs. destruct Hs as [<-|[<-|[<-|[]]]]; try discriminate. injection Hl as <-. split; [reflexivity|].
    intros [|i] [|[|j]] t Hi Hj Ht; cbn in Hi, Hj; try lia; cbn in Ht; injection Ht as <-; (split; [left; repeat split|right; split; [cbn; lia|repeat split]]). }
  split. { intros s Hs. cbn in Hs. destruct Hs as [<-|[<-|[<-|[]]]]; cbn; lia. }
  split; [reflexivity|]. intros c Hc Hd. apply yh_inh in Hc. apply Hfp in Hd. lia.
Qed.

Print Assumptions C54_triangularinvmul_hmatrix.
Print Assumptions C54_triangularinvmul_amatrix_hmatrix.
Print Assumptions C54_triangularmul_hmatrix_partial.
Print Assumptions C54_triangularmul_refuted.
Print Assumptions C54_lrdecomp_hmatrix.
Print Assumptions C54_lr_solve.
