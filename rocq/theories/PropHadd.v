(** * Property C52: addition and merging of H-matrices *)
From Coq Require Import Arith Lia List Bool Ring.
From Coq Require Import Reals Lra QArith Qcanon.
From Verif Require Import Fld Inst Ord OrdInst Prog Arr View Loop Line Spec Cluster Block BlockP Avector Amatrix AmatrixP AmatrixP2 Rkmatrix RkSpec RkP Factor FactorSpec Chol CholSpec Qr QrSpec CholInst QrInst
  CopSpec OrthoP Htrunc HtSpec HtP HtInst Hmatrix HmSpec HmP HlibSpec HaddSpec HmvP Hadd MgP MgP3 HaddP HaddP2 HaddP3 HaddP4 HaddP5 HaddP6.
Import ListNotations.
Local Open Scope nat_scope.

(** ** Merging two low-rank matrices: the second one is put below the first one or at its right, and
    the result is truncated. *)
Section Merge.
Context {K : fops} (L : field_laws K) (O : qops K) (H : qlaws O) (HZ : exact_zero O).
Context (orth : Prop) (good : nat -> (nat -> K) -> Prop) (chosen : nat -> (nat -> K) -> nat -> Prop) (dom : nat -> nat -> Prop).
Context (svd : mat -> vec -> mat -> mat -> prog K unit) (rank : vec -> prog K nat) (Hsvd : svd_ok orth good dom svd) (Hrank : rank_ok good chosen rank).
Implicit Types (m : mem K) (D E : nat -> nat -> K).

Theorem C52_merge_rkmatrix : forall (colmerge : bool) src trg m D E,
  rkown m trg -> rkrep m trg D -> rkrep m src E -> (forall a, rkblk src a -> fst a < next m /\ ~ rkblk trg a) ->
  let r1 := mrows (rk_A trg) in let c1 := mrows (rk_B trg) in let r2 := mrows (rk_A src) in let c2 := mrows (rk_B src) in
  (if colmerge then c1 = c2 /\ dom c1 (Nat.min r1 (rk_k trg) + Nat.min r2 (rk_k src))
   else r1 = r2 /\ dom r1 (Nat.min c1 (rk_k trg) + Nat.min c2 (rk_k src))) ->
  let rows := if colmerge then r1 + r2 else r1 in let cols := if colmerge then c1 else c1 + c2 in
  ends (merge_rkmatrix O svd rank colmerge src trg) m (fun r' m' =>
    mrows (rk_A r') = rows /\ mrows (rk_B r') = cols /\ replaced m trg m' r' /\
    exists D', rkrep m' r' D' /\
      truncated orth good chosen rows cols (fun i j => if colmerge then if i <? r1 then D i j else E (i - r1) j else if j <? c1 then D i j else E i (j - c1)) D' (rk_k r')).
Proof.
  intros cm src trg m D E HO HD HE HS r1 c1 r2 c2 Hd rows cols. apply wp_ends.
  assert (HA : MgP3.apart m trg src).
  { assert (X1 := HS (mblk (rk_A src), 0%nat) (or_introl eq_refl)). assert (X2 := HS (mblk (rk_B src), 0%nat) (or_intror eq_refl)). cbn [fst] in X1, X2. unfold rkblk in X1, X2. cbn [fst] in X1, X2.
    split; [apply X1|]. split; [apply X2|]. split; cbn; [intros [X|[X|[]]]; apply (proj2 X1); auto|intros [X|[X|[]]]; apply (proj2 X2); auto]. }
  eapply (wp_merge L O H HZ orth good chosen dom svd rank Hsvd Hrank cm src trg m D E); [exact HO|exact HD|exact HE|exact HA|exact Hd|].
  fold r1 c1 r2 c2. intros r' m' HP. unfold rows, cols. destruct cm; destruct HP as (D' & P1 & P2 & P3 & P4 & P5); (split; [exact P2|]); (split; [exact P3|]); (split; [exact P5|]); exists D'; (split; [exact P1|exact P4]).
Qed.
End Merge.

(** ** Addition of an H-matrix to a dense matrix *)
Theorem C52_add_hmatrix_amatrix : forall {K : fops} {G : ofops} (L : field_laws K) alpha (atrans : bool) (a : hmatrix G) b (m : mem K) D g,
  hrep m a D -> mwf b -> mval m b g -> disj (inh a) (inm b) ->
  (if atrans then mcols b else mrows b) = hrows a -> (if atrans then mrows b else mcols b) = hcols a ->
  ends (add_hmatrix_amatrix alpha atrans a b) m (fun _ m' =>
    mval m' b (fun i j => g i j + alpha * (if atrans then fconj (D j i) else D i j))%F /\ keeps (inm b) m m').
Proof.
  intros K G L alpha at_ a b m D g HR HW HV Hd E1 E2. apply wp_ends. eapply (wp_add_h_am L alpha at_ a b m D g); try eassumption. intros m' A1 A2. split; [|exact A2].
  destruct at_; exact A1.
Qed.

(** ** Addition to H-matrices.  The decomposition works for all matrices, and truncation drops terms
    only if their singular value is zero: then the result is exact. *)
Section Add.
Context {K : fops} {G : ofops} (L : field_laws K) (O : qops K) (H : qlaws O) (HZ : exact_zero O).
Context (orth : Prop) (good : nat -> (nat -> K) -> Prop) (chosen : nat -> (nat -> K) -> nat -> Prop).
Context (svd : mat -> vec -> mat -> mat -> prog K unit) (rank : vec -> prog K nat) (Hsvd : svd_ok orth good (fun _ _ => True) svd) (Hrank : rank_ok good chosen rank).
Context (Hless : forall n s k, chosen n s k -> forall l, k <= l < n -> s l = f0).
Local Notation hmx := (hmatrix G).
Implicit Types (m : mem K) (a b : hmx) (D E : nat -> nat -> K).

Theorem C52_add_rkmatrix_hmatrix : forall alpha src b m D E,
  hrep m b D -> hmut m b -> rkrep m src E -> mrows (rk_A src) = hrows b -> mrows (rk_B src) = hcols b -> disj (inrk src) (hfp b) ->
  ends (add_rkmatrix_hmatrix O svd rank alpha b src) m (hpost m b (fun i j => D i j + alpha * E i j)%F).
Proof.
  intros alpha src b m D E H1 H2 H3 H4 H5 H6. apply wp_ends.
  eapply (wp_add_rk_h L O H HZ orth good chosen _ svd rank Hsvd Hrank (fun _ _ => I) Hless); try eassumption. auto.
Qed.
(** For the transposed matrix only if the target is a leaf, see below *)
Theorem C52_add_amatrix_hmatrix_partial : forall alpha (atrans : bool) x fx b m D, fconj alpha = alpha -> (atrans = true -> hm_son b = None) ->
  hrep m b D -> hmut m b -> mval m x fx -> (if atrans then mcols x else mrows x) = hrows b -> (if atrans then mrows x else mcols x) = hcols b -> disj (inm x) (hfp b) ->
  ends (add_amatrix_hmatrix O svd rank alpha atrans b x) m (hpost m b (fun i j => D i j + alpha * (if atrans then fconj (fx j i) else fx i j))%F).
Proof.
  intros alpha at_ x fx b m D Hal Ht H1 H2 H3 H4 H5 H6. apply wp_ends. destruct at_.
  - specialize (Ht eq_refl). pose proof H1 as H1'. inversion H1' as [rc cc r ds D0 Z1 Z2 Z3|rc cc f ds D0 Z1 Z2 Z3|]; subst b; cbn in Ht; try discriminate; cbn [add_amatrix_hmatrix]; apply wp_bind.
    + eapply (wp_add_dense_x L O H HZ orth good chosen _ svd rank Hsvd Hrank (fun _ _ => I) Hless alpha true x fx); try eassumption. intros r' m' HP. exact HP.
    + eapply (wp_add_full (G := G) alpha true x fx); try eassumption. intros m' HP. exact HP.
  - eapply (wp_add_am_h L O H HZ orth good chosen _ svd rank Hsvd Hrank (fun _ _ => I) Hless); try eassumption. auto.
Qed.
(** Both H-matrices are split as their clusters are. *)
Theorem C52_add_hmatrix : forall alpha a b m D E, fconj alpha = alpha ->
  hrep m a E -> hrep m b D -> hmut m b -> hm_rc a = hm_rc b -> hm_cc a = hm_cc b -> hstd a -> hstd b -> hpos a -> disj (inh a) (hfp b) ->
  ends (add_hmatrix O svd rank alpha a b) m (hpost m b (fun i j => D i j + alpha * E i j)%F).
Proof.
  intros alpha a b m D E Hal H1 H2 H3 H4 H5 H6 H7 H8 H9. apply wp_ends.
  eapply (wp_add_h L O H HZ orth good chosen _ svd rank Hsvd Hrank (fun _ _ => I) Hless alpha Hal a b m D E); try eassumption. auto.
Qed.
(** An H-matrix whose submatrices are low-rank matrices becomes a low-rank matrix. *)
Theorem C52_merge_hmatrix_rkmatrix : forall b l m D,
  hrep m b D -> hmut m b -> hm_son b = Some l -> (forall s, In s l -> hm_r s <> None) ->
  ends (merge_hmatrix_rkmatrix O svd rank b) m (fun r m' =>
    rkrep m' r D /\ rkown m' r /\ mrows (rk_A r) = hrows b /\ mrows (rk_B r) = hcols b /\ moves m nowhere (rkblk r) m').
Proof.
  intros b l m D HR HU Hl Hs. apply wp_ends. inversion HR as [| |rc cc l0 rs cs ds hs ws D0 P1 P2 P3 P4 P5 P6 P7]; subst b; cbn in Hl; try discriminate. injection Hl as ->. subst D0.
  inversion HU as [| |? ? ? ? ? ? U1 U2]; subst. unfold hrows, hcols. cbn [hm_rc hm_cc].
  eapply (wp_merge_all L O H HZ orth good chosen _ svd rank Hsvd Hrank (fun _ _ => I) Hless l rs cs hs ws D m P1 P2 P3 _ (csz rc) (csz cc)); [exact P4|exact P5|reflexivity|].
  intros r m' (A1 & A2 & A3 & A4) A5. auto.
  Unshelve. intros i j s Hi Hj Hsn. pose proof (nth_error_In _ _ Hsn) as Hin. pose proof (U1 s Hin) as HUs. pose proof (P7 i j s Hi Hj Hsn) as HRs. destruct (P6 i j s Hi Hj Hsn) as [E1 E2]. specialize (Hs s Hin).
  inversion HRs as [rc1 cc1 r1 ds1 D1 Z1 Z2 Z3|? ? ? ? ? ? ? ?|]; subst s; cbn in Hs; try (exfalso; apply Hs; reflexivity). inversion HUs as [? ? ? ? V1 V2 V3| |]; subst. exists rc1, cc1, r1, ds1. split; [reflexivity|].
  unfold hrows in E1. unfold hcols in E2. cbn in E1, E2. split; [exact V3|]. split; [exact Z3|]. split; congruence.
Qed.
End Add.

(** A dense matrix is split into an H-matrix that represents it and shares its storage.  [p 0], ...,
    [p (n - 1)] are the parts of the cluster [c]: its sons, or [c] itself. *)
Definition parts {G : ofops} (split : bool) (c : cptr G) (n : nat) (p : nat -> cptr G) : Prop :=
  (if split && (0 <? cp_sons c) then n = cp_sons c /\ (forall i, i < n -> cp_son c i = Ok (p i)) else n = 1 /\ p 0 = c) /\
  (forall i, i < n -> 0 < csz (p i)) /\ nsum n (fun i => csz (p i)) = csz c.
Theorem C52_split_sub_amatrix : forall {K : fops} {G : ofops} f (rc cc : cptr G) (rsplit csplit : bool) rs cs rl cl (m : mem K) g,
  mwf f -> mval m f g -> mrows f = csz rc -> mcols f = csz cc -> parts rsplit rc rs rl -> parts csplit cc cs cl ->
  ends (split_sub_amatrix f rc cc rsplit csplit) m (fun h m' => m' = m /\ hrep m h g /\ hm_rc h = rc /\ hm_cc h = cc /\ hm_rsons h = rs /\ hm_csons h = cs /\
    exists l, hm_son h = Some l /\ (forall i j s, i < rs -> j < cs -> nth_error l (i + j * rs) = Some s -> hm_rc s = rl i /\ hm_cc s = cl j /\ (forall a, inh s a -> inm f a))).
Proof.
  intros K G f rc cc rsp csp rs cs rl cl m g HW HV RF CF (HR & PR & SR) (HC & PC & SC). apply wp_ends.
  assert (X : forall split (c : cptr G) n p, (if split && (0 <? cp_sons c) then n = cp_sons c /\ (forall i, i < n -> cp_son c i = Ok (p i)) else n = 1 /\ p 0 = c) ->
    0 < n /\ part_sons split c = n /\ forall i, i < n -> part_son (K := K) split c i = Ret (p i)).
  { intros split c n p Hp. unfold part_sons, part_son. destruct split; cbn [andb] in *; [destruct (Nat.ltb_spec 0 (cp_sons c)) as [Hl|Hl]|]; destruct Hp as [E1 E2].
    - split; [lia|]. split; [auto|]. intros i Hi. rewrite E2 by exact Hi. reflexivity.
    - split; [lia|]. split; [auto|]. intros i Hi. assert (i = 0) by lia. subst i. rewrite E2. reflexivity.
    - split; [lia|]. split; [auto|]. intros i Hi. assert (i = 0) by lia. subst i. rewrite E2. reflexivity. }
  destruct (X _ _ _ _ HR) as (R0 & ER & ERl). destruct (X _ _ _ _ HC) as (C0 & EC & ECl). clear X.
  eapply (wp_split_am f rc cc rsp csp rs cs rl cl m g); try eassumption. intros l ds h HL HV1. split; [reflexivity|].
  assert (HRi : forall i, i < rs -> nsum i (fun i => csz (rl i)) + csz (rl i) <= mrows f) by (intros i Hi; rewrite RF, <- SR; apply (nsum_in (fun i => csz (rl i))); exact Hi).
  assert (HCi : forall i, i < cs -> nsum i (fun i => csz (cl i)) + csz (cl i) <= mcols f) by (intros i Hi; rewrite CF, <- SC; apply (nsum_in (fun i => csz (cl i))); exact Hi).
  split.
  - unfold h. apply (hrep_super m rc cc l rs cs ds (fun i => csz (rl i)) (fun j => csz (cl j))); auto.
    + intros i j s Hi Hj Hs. rewrite (HV1 i j s Hi Hj Hs). split; reflexivity.
    + intros i j s Hi Hj Hs. rewrite (HV1 i j s Hi Hj Hs). constructor; [reflexivity|reflexivity|]. apply mval_subm; [exact HV|apply HRi, Hi|apply HCi, Hj].
  - split; [reflexivity|]. split; [reflexivity|]. split; [reflexivity|]. split; [reflexivity|]. exists l. split; [reflexivity|]. intros i j s Hi Hj Hs. rewrite (HV1 i j s Hi Hj Hs). split; [reflexivity|]. split; [reflexivity|].
    intros a Ha. inversion Ha as [? r0 ? E Hin|? f0 ? E Hin|? l0 s0 ? E Hs0 Hin]; cbn in E; try discriminate. injection E as <-. eapply inm_subm; [apply HRi, Hi|apply HCi, Hj|exact Hin].
Qed.

(** ** With a subdivided target the transposed matrix is not added: the submatrices are taken from
    the matrix, not from its adjoint.  A 2 x 2 H-matrix with four dense leaves. *)
Definition zcl (o : nat) : cluster QcO := Cl 1 o [] 0 (anew 0) (anew 0) (Some 1) 0.
Definition zc (o : nat) : cptr QcO := CP [o] (zcl o).
Definition zroot : cptr QcO := CP [] (Cl 2 0 [zcl 0; zcl 1] 0 (anew 0) (anew 0) (Some 3) 0).
Definition zl (i j k : nat) : hmatrix QcO := HM (zc i) (zc j) None (Some (Mat k 0 1 1 1 true)) None 0 0 1.
Definition zb : hmatrix QcO := HM zroot zroot None None (Some [zl 0 0 0; zl 1 0 1; zl 0 1 2; zl 1 1 3]) 2 2 5.
Definition zq (n : Z) : Qcf := Q2Qc (inject_Z n).
Definition zm : list (list Qcf) := map (map zq) [[0]; [0]; [0]; [0]; [1; 2; 3; 4]]%Z.
Definition zx : mat := Mat 4 0 2 2 2 true.
Lemma zb_rep : hrep (mem_of zm) zb (fun _ _ => f0).
Proof.
  eapply (hrep_super _ _ _ _ 2 2 _ (fun _ => 1) (fun _ => 1)); try reflexivity; try lia.
  - intros [|[|i]] [|[|j]] s Hi Hj Hs; try lia; cbn in Hs; injection Hs as <-; split; reflexivity.
  - intros [|[|i]] [|[|j]] s Hi Hj Hs; try lia; cbn in Hs; injection Hs as <-; constructor; try reflexivity;
      (eapply mval_ext; [apply mval_of; reflexivity|]); intros p q Hp Hq; cbn in Hp, Hq; destruct p, q; try lia; apply Qc_is_canon; reflexivity.
Qed.
Lemma zb_mut : hmut (mem_of zm) zb.
Proof.
  constructor.
  - intros s Hs. cbn in Hs. decompose [or] Hs; try contradiction; subst s; (constructor; [cbn; lia|cbn; lia|unfold mwf; cbn; lia]).
  - intros i k s t Hs Ht Hne a Ha Hb. destruct i as [|[|[|[|i]]]]; cbn in Hs; [| | | |destruct i; discriminate]; injection Hs as <-;
      (destruct k as [|[|[|[|k]]]]; cbn in Ht; [| | | |destruct k; discriminate]); injection Ht as <-; apply hfp_full in Ha; apply hfp_full in Hb; apply inm_blk in Ha, Hb; cbn in *; congruence.
Qed.
Lemma zval (c : cell Qcf) (v x : Qcf) : c = Val v -> Qc_eq_bool v x = true -> match c with Val v => Qc_eq_bool v x | _ => true end = false -> False.
Proof. intros ->. congruence. Qed.
Theorem C52_add_amatrix_hmatrix_refuted : forall (O : qops Qcf) svd rank, exists alpha x fx (b : hmatrix QcO) (m : mem Qcf) D, fconj alpha = alpha /\
  hrep m b D /\ hmut m b /\ mval m x fx /\ mcols x = hrows b /\ mrows x = hcols b /\ disj (inm x) (hfp b) /\
  ends (add_amatrix_hmatrix O svd rank alpha true b x) m (fun b' m' => ~ hrep m' b' (fun i j => D i j + alpha * fconj (fx j i))%F).
Proof.
  intros O svd rank. exists (f1 : Qcf), zx, (mof zm zx), zb, (mem_of zm), (fun _ _ => f0). split; [reflexivity|]. split; [exact zb_rep|]. split; [exact zb_mut|]. split; [apply mval_of; reflexivity|]. split; [reflexivity|]. split; [reflexivity|].
  split. { intros a Ha Hb. apply inm_blk in Ha. cbn in Ha. unfold zb in Hb. rewrite hfp_super in Hb. destruct Hb as (k & s & Hk & Hb). destruct k as [|[|[|[|k]]]]; cbn in Hk; [| | | |destruct k; discriminate]; injection Hk as <-; apply hfp_full, inm_blk in Hb; cbn in Hb; congruence. }
  assert (X : match run (add_amatrix_hmatrix O svd rank (f1 : Qcf) true zb zx) (mem_of zm) with
    | Ok (HM _ _ _ _ (Some [s0; s1; s2; s3]) rs cs _, m') => Some (hcols s0, hm_f s2, rs, cs, match get m' (2, 0) with Val v => Qc_eq_bool v (zq 2) | _ => true end) | _ => None end = Some (1, Some (Mat 2 0 1 1 1 true), 2, 2, false)) by (vm_compute; reflexivity).
  unfold ends. destruct (run (add_amatrix_hmatrix O svd rank (f1 : Qcf) true zb zx) (mem_of zm)) as [[b' m']|]; [|discriminate].
  exists b', m'. split; [reflexivity|]. intros HR. destruct b' as [rc cc r f son rs cs ds]. destruct son as [[|s0 [|s1 [|s2 [|s3 [|]]]]]|]; try discriminate. injection X as X1 X2 X3 X4 X5. subst rs cs.
  inversion HR as [| |? ? ? ? ? ? hs ws ? P1 P2 P3 P4 P5 P6 P7]; subst. destruct (P6 0 0 s0 Nat.lt_0_2 Nat.lt_0_2 eq_refl) as [_ W0]. pose proof (P7 0 1 s2 Nat.lt_0_2 Nat.lt_1_2 eq_refl) as H2.
  inversion H2 as [? ? ? ? ? ? ? ? E|? ? f2 ? ? ? ? HV E|? ? ? ? ? ? ? ? ? ? ? ? ? ? ? ? E]; subst s2; cbn in X2; try discriminate. injection X2 as ->. specialize (HV 0 0 Nat.lt_0_1 Nat.lt_0_1).
  cbn [nsum Nat.add] in HV. rewrite X1 in W0. rewrite <- W0 in HV. change (get m' (2, 0) = Val (f0 + f1 * fconj (mof zm zx 1 0))%F) in HV. exact (zval _ _ (zq 2) HV ltac:(vm_compute; reflexivity) X5).
Qed.

(** ** The hypotheses can be met: 3 x 3 H-matrices with three dense leaves and a low-rank leaf *)
Definition yl (k o : nat) : cluster QcO := Cl k o [] 0 (anew 0) (anew 0) (Some 1) 0.
Definition yt : cptr QcO := CP [] (Cl 3 0 [yl 1 0; yl 2 1] 0 (anew 0) (anew 0) (Some 3) 0).
Definition y0 : cptr QcO := CP [0] (yl 1 0).
Definition y1 : cptr QcO := CP [1] (yl 2 1).
Definition yA (o : nat) : mat := Mat (1 + o) 0 2 2 1 true.
Definition yB (o : nat) : mat := Mat (2 + o) 0 1 1 1 true.
Definition yf (o i j : nat) : mat := Mat ((match j with 0 => 0 | _ => 3 + i end) + o) 0 (1 + i) (1 + i) (1 + j) true.
Definition yh (o : nat) : hmatrix QcO :=
  HM yt yt None None (Some [HM y0 y0 None (Some (yf o 0 0)) None 0 0 1; HM y1 y0 (Some (Rk (yA o) (yB o) 1)) None None 0 0 1;
    HM y0 y1 None (Some (yf o 0 1)) None 0 0 1; HM y1 y1 None (Some (yf o 1 1)) None 0 0 1]) 2 2 5.
(** A subdivided matrix with low-rank leaves only *)
Definition yk (o : nat) : hmatrix QcO :=
  HM yt y0 None None (Some [HM y0 y0 (Some (Rk (Mat o 0 1 1 1 true) (Mat (1 + o) 0 1 1 1 true) 1)) None None 0 0 1; HM y1 y0 (Some (Rk (Mat (2 + o) 0 2 2 1 true) (Mat (3 + o) 0 1 1 1 true) 1)) None None 0 0 1]) 2 1 3.
Definition ym : list (list Rf) := map (map IZR) [[1]; [2; 10]; [37]; [5; 71]; [1; 25; 3; 0]; [2]; [3; 1]; [7]; [6; 7]; [1; 2; 3; 4]; [1; 2; 1]; [0; 1; 1]; [1; 2; 3; 4; 5; 6; 7; 8; 9]; [1]; [2]; [3; 4]; [5]]%Z.
Definition yr : rkm := Rk (Mat 10 0 3 3 1 true) (Mat 11 0 3 3 1 true) 1.
Definition yx : mat := Mat 12 0 3 3 3 true.
Definition yD (o p q : nat) : Rf :=
  if p <? 1 then (if q <? 1 then mof ym (yf o 0 0) p q else mof ym (yf o 0 1) p (q - 1))
  else (if q <? 1 then lowrank 1 (mof ym (yA o)) (mof ym (yB o)) (p - 1) q else mof ym (yf o 1 1) (p - 1) (q - 1)).
Definition yE (p q : nat) : Rf := if p <? 1 then lowrank 1 (mof ym (Mat 13 0 1 1 1 true)) (mof ym (Mat 14 0 1 1 1 true)) p q else lowrank 1 (mof ym (Mat 15 0 2 2 1 true)) (mof ym (Mat 16 0 1 1 1 true)) (p - 1) q.
Lemma y_rk (A B : mat) k : mcols A = k -> mcols B = k ->
  (mblk A <? length ym) && (mrows A <=? mld A) && (moff A + mld A * (mcols A - 1) + mrows A <=? length (nth (mblk A) ym [])) = true ->
  (mblk B <? length ym) && (mrows B <=? mld B) && (moff B + mld B * (mcols B - 1) + mrows B <=? length (nth (mblk B) ym [])) = true ->
  rkrep (mem_of ym) (Rk A B k) (lowrank k (mof ym A) (mof ym B)).
Proof. intros E1 E2 HA HB. exists (mof ym A), (mof ym B). split; [apply mval_of, HA|]. split; [apply mval_of, HB|]. repeat split; auto. Qed.
Lemma y_own (A B : mat) k : mown A = true -> mown B = true -> mblk A <> mblk B -> mcols A = k -> mcols B = k -> 0 < mld A -> 0 < mld B -> mrows A <= mld A -> mrows B <= mld B -> moff A = 0 -> moff B = 0 ->
  (mblk A <? length ym) && (mrows A <=? mld A) && (moff A + mld A * (mcols A - 1) + mrows A <=? length (nth (mblk A) ym [])) = true ->
  (mblk B <? length ym) && (mrows B <=? mld B) && (moff B + mld B * (mcols B - 1) + mrows B <=? length (nth (mblk B) ym [])) = true ->
  rkown (mem_of ym) (Rk A B k).
Proof.
  intros O1 O2 NE E1 E2 L1 L2 R1 R2 Z1 Z2 HA HB.
  assert (X1 : mblk A < length ym) by (apply andb_true_iff in HA as [HA _]; apply andb_true_iff in HA as [HA _]; apply Nat.ltb_lt in HA; exact HA).
  assert (X2 : mblk B < length ym) by (apply andb_true_iff in HB as [HB _]; apply andb_true_iff in HB as [HB _]; apply Nat.ltb_lt in HB; exact HB).
  unfold rkown, mwf; cbn [rk_A rk_B rk_k]. repeat split; auto; try lia; eapply mval_alloc, mval_of; assumption.
Qed.
Lemma yh_rep o : o = 0 \/ o = 5 -> hrep (mem_of ym) (yh o) (yD o).
Proof.
  intros Ho. eapply (hrep_super _ _ _ _ 2 2 _ (fun i => nth i [1; 2] 0) (fun i => nth i [1; 2] 0)); try reflexivity; try lia.
  - intros [|[|i]] [|[|j]] s Hi Hj Hs; try lia; cbn in Hs; injection Hs as <-; split; reflexivity.
  - intros [|[|i]] [|[|j]] s Hi Hj Hs; try lia; cbn in Hs; injection Hs as <-; constructor; try reflexivity.
    + eapply mval_ext; [apply mval_of; destruct Ho as [->| ->]; reflexivity|]. intros p q Hp Hq. cbn in Hp, Hq. destruct p, q; [reflexivity|lia..].
    + eapply mval_ext; [apply mval_of; destruct Ho as [->| ->]; reflexivity|]. intros p q Hp Hq. cbn in Hp, Hq. destruct p; [|lia]. cbn [nsum nth Nat.add]. unfold yD.
      cbn [Nat.ltb Nat.leb Nat.sub]. rewrite Nat.sub_0_r. reflexivity.
    + eapply rkrep_ext; [apply y_rk; destruct Ho as [->| ->]; reflexivity|].
      intros p q Hp Hq. cbn in Hp, Hq. destruct q; [|lia]. cbn [nsum nth Nat.add]. unfold yD. cbn [Nat.ltb Nat.leb Nat.sub]. rewrite Nat.sub_0_r. reflexivity.
    + eapply mval_ext; [apply mval_of; destruct Ho as [->| ->]; reflexivity|]. intros p q Hp Hq. cbn [nsum nth Nat.add]. unfold yD. cbn [Nat.ltb Nat.leb Nat.sub]. rewrite !Nat.sub_0_r. reflexivity.
Qed.
Lemma yh_fp o a : hfp (yh o) a -> o <= fst a < 5 + o.
Proof.
  unfold yh. rewrite hfp_super. intros (k & s & Hk & Ha). destruct k as [|[|[|[|k]]]]; cbn [nth_error] in Hk; [| | | |destruct k; discriminate]; injection Hk as <-.
  - apply hfp_full in Ha. apply inm_blk in Ha. cbn in Ha. lia.
  - apply hfp_rk in Ha. destruct Ha as [Ha|Ha]; cbn in Ha; lia.
  - apply hfp_full in Ha. apply inm_blk in Ha. cbn in Ha. lia.
  - apply hfp_full in Ha. apply inm_blk in Ha. cbn in Ha. lia.
Qed.
Lemma yh_mut o : o = 0 \/ o = 5 -> hmut (mem_of ym) (yh o).
Proof.
  intros Ho. constructor.
  - intros s Hs. cbn [In] in Hs. decompose [or] Hs; try contradiction; subst s; (constructor; [cbn; lia|cbn; lia|]).
    + unfold mwf; cbn; lia.
    + destruct Ho as [->| ->]; apply y_own; try reflexivity; cbn; lia.
    + unfold mwf; cbn; lia.
    + unfold mwf; cbn; lia.
  - intros i k s t Hs Ht Hne a Ha Hb. destruct i as [|[|[|[|i]]]]; cbn [nth_error] in Hs; [| | | |destruct i; discriminate]; injection Hs as <-;
      (destruct k as [|[|[|[|k]]]]; cbn [nth_error] in Ht; [| | | |destruct k; discriminate]); injection Ht as <-; try congruence;
      first [apply hfp_full, inm_blk in Ha|apply hfp_rk in Ha; destruct Ha as [Ha|Ha]]; first [apply hfp_full, inm_blk in Hb|apply hfp_rk in Hb; destruct Hb as [Hb|Hb]]; cbn in Ha, Hb; lia.
Qed.
Lemma yh_std o : hstd (yh o).
Proof.
  intros s l Hs Hl. cbn in Hs. decompose [or] Hs; try contradiction; subst s; try discriminate. cbn in Hl. injection Hl as <-. split; [reflexivity|]. cbn [hm_rsons hm_csons hm_rc hm_cc].
  intros [|[|i]] [|[|j]] t Hi Hj Ht; try lia; cbn in Ht; injection Ht as <-; split; right; cbn; split; try lia; split; reflexivity.
Qed.
Lemma yh_pos o : hpos (yh o).
Proof. intros s Hs. cbn in Hs. decompose [or] Hs; try contradiction; subst s; cbn; lia. Qed.
Lemma yk_rep : hrep (mem_of ym) (yk 13) yE.
Proof.
  eapply (hrep_super _ _ _ _ 2 1 _ (fun i => nth i [1; 2] 0) (fun i => nth i [1] 0)); try reflexivity; try lia.
  - intros [|[|i]] [|j] s Hi Hj Hs; try lia; cbn in Hs; injection Hs as <-; split; reflexivity.
  - intros [|[|i]] [|j] s Hi Hj Hs; try lia; cbn in Hs; injection Hs as <-; constructor; try reflexivity.
    + eapply rkrep_ext; [apply y_rk; reflexivity|]. intros p q Hp Hq. cbn in Hp, Hq. destruct p, q; [reflexivity|lia..].
    + eapply rkrep_ext; [apply y_rk; reflexivity|]. intros p q Hp Hq. cbn in Hp, Hq. destruct q; [|lia]. cbn [nsum nth Nat.add]. unfold yE. cbn [Nat.ltb Nat.leb Nat.sub]. rewrite Nat.sub_0_r. reflexivity.
Qed.
Lemma yk_mut : hmut (mem_of ym) (yk 13).
Proof.
  constructor.
  - intros s Hs. cbn [In] in Hs. decompose [or] Hs; try contradiction; subst s; (constructor; [cbn; lia|cbn; lia|]); (apply y_own; try reflexivity; cbn; lia).
  - intros i k s t Hs Ht Hne a Ha Hb. destruct i as [|[|i]]; cbn [nth_error] in Hs; [| |destruct i; discriminate]; injection Hs as <-;
      (destruct k as [|[|k]]; cbn [nth_error] in Ht; [| |destruct k; discriminate]); injection Ht as <-; try congruence;
      apply hfp_rk in Ha; apply hfp_rk in Hb; destruct Ha as [Ha|Ha], Hb as [Hb|Hb]; cbn in Ha, Hb; lia.
Qed.
Example C52_hyps : let m := mem_of ym in
  field_laws Rf /\ qlaws (Rq (IZR 0)) /\ exact_zero (Rq (IZR 0)) /\
  svd_ok False (fun _ _ => True) (fun _ _ => True) (@triv_svd Rf) /\ rank_ok (fun _ _ => True) (fun n _ k => k = n) (@triv_rank Rf) /\
  (forall (n : nat) (s : nat -> Rf) k, k = n -> forall l, k <= l < n -> s l = f0) /\
  hrep m (yh 0) (yD 0) /\ hrep m (yh 5) (yD 5) /\ hmut m (yh 5) /\ hstd (yh 0) /\ hstd (yh 5) /\ hpos (yh 0) /\ disj (inh (yh 0)) (hfp (yh 5)) /\
  rkown m yr /\ rkrep m yr (lowrank 1 (mof ym (rk_A yr)) (mof ym (rk_B yr))) /\ disj (inrk yr) (hfp (yh 5)) /\
  mval m yx (mof ym yx) /\ mwf yx /\ disj (inm yx) (hfp (yh 5)) /\ disj (inh (yh 5)) (inm yx) /\
  hrep m (yk 13) yE /\ hmut m (yk 13) /\ (forall l, hm_son (yk 13) = Some l -> forall s, In s l -> hm_r s <> None) /\
  parts true yt 2 (fun i => if i =? 0 then y0 else y1) /\ parts false yt 1 (fun _ => yt).
Proof.
  cbv zeta. split; [exact Rf_field|]. split; [apply Rq_laws; lra|]. split; [exact (rw_sumsq Rr Rr_laws)|]. split; [apply triv_svd_ok, Rf_field|]. split; [apply triv_rank_ok|]. split; [intros; lia|].
  split; [apply yh_rep; auto|]. split; [apply yh_rep; auto|]. split; [apply yh_mut; auto|]. split; [apply yh_std|]. split; [apply yh_std|]. split; [apply yh_pos|].
  assert (I : forall o a, inh (yh o) a -> o <= fst a < 5 + o).
  { intros o a Ha. inversion Ha as [? r0 ? E Hin|? f0 ? E Hin|? l0 s ? E Hs Hin]; cbn in E; try discriminate. injection E as <-. cbn [In] in Hs. decompose [or] Hs; try contradiction; subst s;
      inversion Hin as [? r0 ? E Hx|? f0 ? E Hx|? l0 s ? E Hx Hy]; cbn in E; try discriminate; injection E as <-; [| destruct Hx as [Hx|Hx]| |]; apply inm_blk in Hx; cbn in Hx; lia. }
  split. { intros a Ha Hb. apply I in Ha. apply yh_fp in Hb. lia. }
  split; [apply y_own; try reflexivity; cbn; lia|]. split; [apply y_rk; reflexivity|].
  split. { intros a [Ha|Ha] Hb; apply inm_blk in Ha; apply yh_fp in Hb; cbn in Ha; lia. }
  split; [apply mval_of; reflexivity|]. split; [unfold mwf; cbn; lia|].
  split. { intros a Ha Hb; apply inm_blk in Ha; apply yh_fp in Hb; cbn in Ha; lia. }
  split. { intros a Hb Ha; apply inm_blk in Ha; apply I in Hb; cbn in Ha; lia. }
  split; [exact yk_rep|]. split; [exact yk_mut|]. split.
  { intros l [= <-] s Hs. cbn [In] in Hs. decompose [or] Hs; try contradiction; subst s; discriminate. }
  split; (split; [|split; [|reflexivity]]).
  - cbn. split; [reflexivity|]. intros [|[|i]] Hi; try lia; reflexivity.
  - intros [|[|i]] Hi; [apply Nat.ltb_lt; reflexivity|apply Nat.ltb_lt; reflexivity|lia].
  - cbn. auto.
  - intros i _. cbn. lia.
Qed.

Print Assumptions C52_merge_rkmatrix.
Print Assumptions C52_add_hmatrix_amatrix.
Print Assumptions C52_add_rkmatrix_hmatrix.
Print Assumptions C52_add_amatrix_hmatrix_partial.
Print Assumptions C52_add_amatrix_hmatrix_refuted.
Print Assumptions C52_add_hmatrix.
Print Assumptions C52_merge_hmatrix_rkmatrix.
Print Assumptions C52_split_sub_amatrix.
