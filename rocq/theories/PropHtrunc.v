(** * Property C51: truncated low-rank arithmetic *)
From Coq Require Import Arith Lia List Bool Ring.
From Coq Require Import Reals Lra.
From Verif Require Import Fld Inst Ord OrdInst Prog Arr View Loop Line Spec Avector Amatrix AmatrixP AmatrixP2 Rkmatrix RkSpec RkP Factor FactorSpec Chol CholSpec Qr QrSpec CholInst QrInst
  CopSpec OrthoP Trunc TruncP PropRk Htrunc HtSpec HtP HtP3 HtP4 HtP5 HtInst.
Import ListNotations.

(** What the functions below are to deliver: the low-rank matrix [r'] in [m'] replaces [r] in [m], and
    it consists of the first terms of a singular value decomposition of the matrix [D]. *)
Definition delivers {K : fops} (orth : Prop) (good : nat -> (nat -> K) -> Prop) (chosen : nat -> (nat -> K) -> nat -> Prop) (kmax : nat)
    (m : mem K) (r : rkm) (D : nat -> nat -> K) (r' : rkm) (m' : mem K) : Prop :=
  mrows (rk_A r') = mrows (rk_A r) /\ mrows (rk_B r') = mrows (rk_B r) /\ rk_k r' <= kmax /\ replaced m r m' r' /\
  exists D', rkrep m' r' D' /\ truncated orth good chosen (mrows (rk_A r)) (mrows (rk_B r)) D D' (rk_k r').

Section C51.
Context {K : fops} (L : field_laws K) (O : qops K) (H : qlaws O) (HZ : exact_zero O).
Context (orth : Prop) (good : nat -> (nat -> K) -> Prop) (chosen : nat -> (nat -> K) -> nat -> Prop) (dom : nat -> nat -> Prop).
Context (svd : mat -> vec -> mat -> mat -> prog K unit) (rank : vec -> prog K nat) (Hsvd : svd_ok orth good dom svd) (Hrank : rank_ok good chosen rank).
Implicit Types (m : mem K) (D E fa : nat -> nat -> K).
Notation delivers := (delivers orth good chosen).

Lemma post_delivers km m r D r' m' : trunc_post orth good chosen km m r D r' m' -> delivers km m r D r' m'.
Proof. intros (D' & H1 & H2 & H3 & H4 & H5 & H6). unfold PropHtrunc.delivers. eauto 10. Qed.

(** ** Truncation.  The singular value decomposition may only be called for matrices with dimensions in [dom]. *)
Theorem C51_trunc_rkmatrix : forall r m D,
  rkown m r -> rkrep m r D ->
  (let a := Nat.min (mrows (rk_A r)) (rk_k r) in let b := Nat.min (mrows (rk_B r)) (rk_k r) in dom a b /\ dom b a) ->
  ends (trunc_rkmatrix O svd rank r) m (fun r' m' =>
    if rk_k r =? 0 then r' = r /\ m' = m else delivers (rk_k r) m r D r' m').
Proof.
  intros r m D HO HR HD. apply wp_ends. destruct (Nat.eqb_spec (rk_k r) 0) as [E|E].
  - destruct HO as (_ & _ & _ & _ & _ & _ & _ & Ca & Cb & _). unfold trunc_rkmatrix.
    apply wp_bind, wp_assert; [apply Nat.eqb_eq, Ca|]. apply wp_bind, wp_assert; [apply Nat.eqb_eq, Cb|].
    rewrite (proj2 (Nat.eqb_eq _ _) E). cbn [wp]. split; reflexivity.
  - eapply (wp_trunc L O H HZ orth good chosen dom svd rank Hsvd Hrank r m D); try assumption. intros r' m' HP. apply post_delivers, HP.
Qed.

(** ** Addition of low-rank matrices *)
Theorem C51_add_rkmatrix : forall alpha src r m D E,
  rkown m r -> rkrep m r D -> rkrep m src E ->
  mrows (rk_A src) = mrows (rk_A r) -> mrows (rk_B src) = mrows (rk_B r) ->
  (forall a, rkblk src a -> fst a < next m /\ ~ rkblk r a) ->
  (let k := rk_k src + rk_k r in let a := Nat.min (mrows (rk_A r)) k in let b := Nat.min (mrows (rk_B r)) k in dom a b /\ dom b a) ->
  ends (add_rkmatrix O svd rank alpha src r) m (fun r' m' =>
    if rk_k src =? 0 then r' = r /\ m' = m else delivers (rk_k src + rk_k r) m r (fun i j => D i j + alpha * E i j)%F r' m').
Proof.
  intros alpha src r m D E HO HR HE R1 R2 HS HD. apply wp_ends. destruct (Nat.eqb_spec (rk_k src) 0) as [E0|E0].
  - unfold add_rkmatrix. rewrite (proj2 (Nat.eqb_eq _ _) E0). cbn [wp]. split; reflexivity.
  - assert (HA := HS (mblk (rk_A src), 0) (or_introl eq_refl)). assert (HB := HS (mblk (rk_B src), 0) (or_intror eq_refl)). cbn [fst] in HA, HB. unfold rkblk in HA, HB. cbn [fst] in HA, HB.
    eapply (wp_add_rk L O H HZ orth good chosen dom svd rank Hsvd Hrank alpha src r m D E); [exact HO|exact HR|exact HE|exact R1|exact R2|apply HA|apply HB| | |exact E0|exact HD|].
    { cbn. intros [X|[X|[]]]; apply (proj2 HA); auto. } { cbn. intros [X|[X|[]]]; apply (proj2 HB); auto. }
    intros r' m' HP. apply post_delivers, HP.
Qed.

(** ** Addition of a dense matrix to a low-rank matrix.  The factor has to be real if the matrix has
    more columns than rows. *)
Theorem C51_add_amatrix_rkmatrix_partial : forall alpha (atrans : bool) a fa r m D,
  rkown m r -> rkrep m r D -> mval m a fa -> mblk a < next m -> ~ rkblk r (mblk a, 0) ->
  (if atrans then mcols a else mrows a) = mrows (rk_A r) -> (if atrans then mrows a else mcols a) = mrows (rk_B r) ->
  (let k := Nat.min (mrows (rk_A r)) (mrows (rk_B r)) in dom k k) ->
  fconj alpha = alpha \/ mrows (rk_B r) <= mrows (rk_A r) ->
  ends (add_amatrix_rkmatrix O svd rank alpha atrans a r) m
    (delivers (Nat.min (mrows (rk_A r)) (mrows (rk_B r))) m r (fun i j => D i j + alpha * tr atrans fa i j)%F).
Proof.
  intros alpha at_ a fa r m D HO HR Ha Ba Na R1 R2 Hd Hal. apply wp_ends.
  eapply (wp_add_dense L O H HZ orth good chosen dom svd rank Hsvd Hrank alpha at_ a fa r m D); try assumption.
  { cbn. unfold rkblk in Na. cbn in Na. intros [X|[X|[]]]; apply Na; auto. }
  intros r' m' HP. apply post_delivers. replace (if mrows (rk_A r) <? mrows (rk_B r) then fconj alpha else alpha) with alpha in HP; [exact HP|].
  destruct (Nat.ltb_spec (mrows (rk_A r)) (mrows (rk_B r))); [|reflexivity]. destruct Hal as [X|X]; [symmetry; exact X|lia].
Qed.

(** What happens for every factor: with more columns than rows the conjugate is used. *)
Theorem C51_add_amatrix_rkmatrix_conj : forall alpha (atrans : bool) a fa r m D,
  rkown m r -> rkrep m r D -> mval m a fa -> mblk a < next m -> ~ rkblk r (mblk a, 0) ->
  (if atrans then mcols a else mrows a) = mrows (rk_A r) -> (if atrans then mrows a else mcols a) = mrows (rk_B r) ->
  (let k := Nat.min (mrows (rk_A r)) (mrows (rk_B r)) in dom k k) ->
  ends (add_amatrix_rkmatrix O svd rank alpha atrans a r) m
    (delivers (Nat.min (mrows (rk_A r)) (mrows (rk_B r))) m r
      (fun i j => D i j + (if mrows (rk_A r) <? mrows (rk_B r) then fconj alpha else alpha) * tr atrans fa i j)%F).
Proof.
  intros alpha at_ a fa r m D HO HR Ha Ba Na R1 R2 Hd. apply wp_ends.
  eapply (wp_add_dense L O H HZ orth good chosen dom svd rank Hsvd Hrank alpha at_ a fa r m D); try assumption.
  { cbn. unfold rkblk in Na. cbn in Na. intros [X|[X|[]]]; apply Na; auto. }
  intros r' m' HP. apply post_delivers, HP.
Qed.
End C51.

Section Exact.
Context {K : fops} (L : field_laws K).
Notation RL := (fl_ring K L).
Add Ring KringPhe : (rl_ring K (fl_ring K L)).
(** ** Addition of a low-rank matrix to a dense matrix: no truncation, so the result is exact. *)
Theorem C51_add_rkmatrix_amatrix : forall alpha (atrans : bool) (r : rkm) (b : mat) (m : mem K) D fb,
  rkrep m r D -> mwf b -> mval m b fb -> disj (inrk r) (inm b) ->
  (if atrans then mrows (rk_B r) else mrows (rk_A r)) = mrows b -> (if atrans then mrows (rk_A r) else mrows (rk_B r)) = mcols b ->
  ends (add_rkmatrix_amatrix alpha atrans r b) m (fun _ m' =>
    mval m' b (fun i j => fb i j + alpha * tr atrans D i j)%F /\ keeps (inm b) m m').
Proof.
  intros alpha at_ r b m D fb (f & g & Hf & Hg & Ca & Cb & HD) Wb Hb Hdj R1 R2. apply wp_ends. unfold add_rkmatrix_amatrix.
  destruct (Nat.eqb_spec (rk_k r) 0) as [E|E].
  { cbn [wp]. split; [|apply keeps_refl]. eapply mval_ext; [exact Hb|]. intros i j Hi Hj. cbv beta. replace (tr at_ D i j) with (f0 : K).
    - ring.
    - destruct at_; cbn [tr]; rewrite HD by lia; rewrite E; unfold lowrank; cbn [sum]; [symmetry; apply (fconj_0 RL)|reflexivity]. }
  destruct at_.
  - apply wp_bind, wp_assert; [apply Nat.eqb_eq, R1|]. apply wp_bind, wp_assert; [apply Nat.eqb_eq, R2|].
    eapply (wp_addmul_amatrix RL TT TT alpha false (rk_B r) true (rk_A r) b g f fb); [exact Wb|exact Hg|exact Hf|exact Hb| | |apply TTr|apply TTr|apply TTw|lia|lia|cbn iota; lia|].
    { intros a Ha. apply Hdj. right. exact Ha. } { intros a Ha. apply Hdj. left. exact Ha. }
    intros m' HV HK. split; [|exact HK]. eapply mval_ext; [exact HV|]. intros i j Hi Hj. cbv beta iota.
    destruct (Nat.ltb_spec i (mrows (rk_B r))); [|lia]. destruct (Nat.ltb_spec j (mrows (rk_A r))); [|lia]. cbn [andb tr]. f_equal. f_equal.
    rewrite HD by lia. unfold lowrank. rewrite (sum_conj RL). rewrite Cb. apply sum_ext. intros l Hl. rewrite (rl_conj_mul K RL), (rl_conj_conj K RL). ring.
  - apply wp_bind, wp_assert; [apply Nat.eqb_eq, R1|]. apply wp_bind, wp_assert; [apply Nat.eqb_eq, R2|].
    eapply (wp_addmul_amatrix RL TT TT alpha false (rk_A r) true (rk_B r) b f g fb); [exact Wb|exact Hf|exact Hg|exact Hb| | |apply TTr|apply TTr|apply TTw|lia|lia|cbn iota; lia|].
    { intros a Ha. apply Hdj. left. exact Ha. } { intros a Ha. apply Hdj. right. exact Ha. }
    intros m' HV HK. split; [|exact HK]. eapply mval_ext; [exact HV|]. intros i j Hi Hj. cbv beta iota.
    destruct (Nat.ltb_spec i (mrows (rk_A r))); [|lia]. destruct (Nat.ltb_spec j (mrows (rk_B r))); [|lia]. cbn [andb tr]. f_equal. f_equal.
    rewrite HD by lia. unfold lowrank. rewrite Ca. apply sum_ext. intros l Hl. reflexivity.
Qed.

(** ** If only vanishing singular values are dropped, nothing is lost. *)
Theorem C51_lossless : forall orth good (chosen : nat -> (nat -> K) -> nat -> Prop) r c D D' k,
  (forall n s, chosen n s k -> forall l, k <= l < n -> s l = f0) ->
  truncated orth good chosen r c D D' k -> forall i j, i < r -> j < c -> D' i j = D i j.
Proof.
  intros orth good chosen r c D D' k HC HT i j Hi Hj. destruct HT as (n & U & s & V & A1 & _ & _ & A3 & _ & _ & A6 & A7).
  rewrite A6, A7 by assumption. replace n with (k + (n - k)) by lia. rewrite (sum_app RL).
  rewrite (sum_0 RL (n - k)); [ring|].
  intros l Hl. rewrite (HC n s A3) by lia. ring.
Qed.

End Exact.

(** ** The error of the truncation *)
Section Err.
Context {K : ofops} (OF : ofield_laws K).
Notation L := (ol_field K OF).
Notation RL := (fl_ring K L).
Add Ring KringPht : (rl_ring K (fl_ring K L)).
Notation OL := (ofield_order OF).
Hypothesis Hreal : forall y : K, fconj y = y.

(** The rank chosen by [findrank_truncmode] for the accuracy [eps] *)
Definition best (fr ab : bool) (eps : K) (n : nat) (s : nat -> K) (k : nat) : Prop :=
  accepted fr ab eps s n k /\ forall k', k' < k -> ~ accepted fr ab eps s n k'.

Lemma findrank_ok (tm : option truncmode) eps :
  let fr := match tm with Some t => tm_frobenius t | None => false end in
  let ab := match tm with Some t => tm_absolute t | None => false end in
  rank_ok sorted (best fr ab eps) (findrank_truncmode tm eps).
Proof.
  intros fr ab sigma s m Hs [Hg _]. destruct (C24_findrank_truncmode OF tm eps sigma s m Hs Hg) as (k & m' & E & H1 & H2 & H3 & H4).
  exists k, m'. unfold best. auto.
Qed.

Theorem C51_truncated_within : forall fr ab eps r c D D' k, fle f0 eps ->
  truncated True sorted (best fr ab eps) r c D D' k -> within fr ab eps r c D D'.
Proof.
  intros fr ab eps r c D D' k Heps HT. destruct (diff_cut L True sorted _ r c D D' k HT) as (n & U & s & V & Hk & Hn & [Hs1 Hs2] & [HC _] & Hre & HO & HD & HE).
  destruct (HO I) as [HU HV]. unfold within, accepted in *. destruct fr.
  - rewrite (fro2_svd L r c n U (cut k s) V _ HU HV (cut_real L n k s Hre) HE), (sumsq_cut L n k s Hk).
    rewrite (fro2_svd L r c n U s V D HU HV Hre HD). exact HC.
  - intros N x HN.
    assert (SP : forall B : K, fle f0 B -> (forall l, k <= l < n -> fle (s l) B) -> fle (sq r (mvec c (fun i j => D i j - D' i j)%F x)) (B * B * sq c x)%F).
    { intros B HB HsB. apply (spectral OF Hreal r c n U (cut k s) V _ x B HU HV HB); [|exact HE]. intros l Hl. unfold cut.
      destruct (Nat.ltb_spec l k); [split; [apply (ole_refl OL)|exact HB]|]. split; [apply Hs2, Hl|apply HsB; lia]. }
    destruct ab.
    + subst N. replace (eps * eps * f1 * sq c x)%F with (eps * eps * sq c x)%F by ring. apply SP; [exact Heps|exact HC].
    + destruct n as [|n].
      * apply (ole_trans OL _ (f0 * f0 * sq c x)%F); [apply SP; [apply (ole_refl OL)|intros; lia]|].
        replace (f0 * f0 * sq c x)%F with (f0 : K) by ring. replace (eps * eps * N * sq c x)%F with ((eps * eps) * (N * sq c x))%F by ring.
        apply (fle_mul_nn OF); [apply (fsq_nn OF)|]. apply (ole_trans OL _ (sq r (mvec c D x))); [|apply HN]. apply (sum_nn OF). intros i _. apply (fsq_nn OF).
      * assert (H0 : fle f0 (s 0)) by (apply Hs2; lia).
        apply (ole_trans OL _ ((eps * s 0%nat) * (eps * s 0%nat) * sq c x)%F); [apply SP; [apply (fle_mul_nn OF); assumption|exact HC]|].
        specialize (HN (fun j => V j 0)).
        assert (E1 : sq c (fun j => V j 0) = f1).
        { transitivity (@idf K 0 0); [|reflexivity]. rewrite <- (HV 0 0 ltac:(lia) ltac:(lia)). apply sum_ext. intros j _. rewrite Hreal. reflexivity. }
        assert (E2 : forall i, i < r -> mvec c D (fun j => V j 0) i = (U i 0%nat * s 0%nat)%F).
        { intros i Hi. unfold mvec. transitivity (sum c (fun j => sum (S n) (fun l => (U i l * s l) * (fconj (V j l) * V j 0%nat))))%F.
          - apply sum_ext. intros j Hj. rewrite HD by assumption. rewrite <- (sum_mul_r RL). apply sum_ext. intros l _. ring.
          - rewrite (sum_swap RL). rewrite (sum_single RL (S n) 0); [|lia|].
            + rewrite (sum_mul_l RL), (HV 0 0) by lia. unfold idf. rewrite Nat.eqb_refl. ring.
            + intros l Hl Hne. rewrite (sum_mul_l RL), (HV l 0) by lia. unfold idf. destruct (Nat.eqb_spec l 0); [contradiction|ring]. }
        assert (E3 : sq r (mvec c D (fun j => V j 0)) = (s 0%nat * s 0%nat)%F).
        { unfold sq. transitivity (sum r (fun i => (s 0%nat * s 0%nat) * (fconj (U i 0%nat) * U i 0%nat)))%F.
          - apply sum_ext. intros i Hi. rewrite E2 by exact Hi. rewrite Hreal. ring.
          - rewrite (sum_mul_l RL), (HU 0 0) by lia. unfold idf. rewrite Nat.eqb_refl. ring. }
        rewrite E1, E3 in HN. replace (N * f1)%F with N in HN by ring.
        replace ((eps * s 0%nat) * (eps * s 0%nat) * sq c x)%F with ((eps * eps * sq c x) * (s 0%nat * s 0%nat))%F by ring.
        replace (eps * eps * N * sq c x)%F with ((eps * eps * sq c x) * N)%F by ring.
        apply (fle_mul_l OF); [|exact HN]. apply (fle_mul_nn OF); [apply (fsq_nn OF)|]. apply (sum_nn OF). intros i _. apply (fsq_nn OF).
Qed.

Context (O : qops K) (H : qlaws O) (HZ : exact_zero O) (dom : nat -> nat -> Prop).
Context (svd : mat -> vec -> mat -> mat -> prog K unit) (Hsvd : svd_ok True sorted dom svd).
Context (tm : option truncmode) (eps : K) (Heps : fle f0 eps).
Notation fr := (match tm with Some t => tm_frobenius t | None => false end).
Notation ab := (match tm with Some t => tm_absolute t | None => false end).

(** The result of the truncation differs from the matrix by at most the given accuracy. *)
Theorem C51_trunc_error : forall r m D,
  rkown m r -> rkrep m r D -> rk_k r <> 0 ->
  (let a := Nat.min (mrows (rk_A r)) (rk_k r) in let b := Nat.min (mrows (rk_B r)) (rk_k r) in dom a b /\ dom b a) ->
  ends (trunc_rkmatrix O svd (findrank_truncmode tm eps) r) m (fun r' m' =>
    rk_k r' <= rk_k r /\ exists D', rkrep m' r' D' /\ within fr ab eps (mrows (rk_A r)) (mrows (rk_B r)) D D').
Proof.
  intros r m D HO HR Hk HD. destruct (C51_trunc_rkmatrix L O H HZ True sorted (best fr ab eps) dom svd _ Hsvd (findrank_ok tm eps) r m D HO HR HD) as (r' & m' & E & HP).
  exists r', m'. split; [exact E|]. destruct (Nat.eqb_spec (rk_k r) 0); [contradiction|]. destruct HP as (_ & _ & H1 & _ & D' & H2 & H3). split; [exact H1|].
  exists D'. split; [exact H2|]. eapply C51_truncated_within; [exact Heps|exact H3].
Qed.

(** The same for the sum of two low-rank matrices *)
Theorem C51_add_error : forall alpha src r m D E,
  rkown m r -> rkrep m r D -> rkrep m src E -> rk_k src <> 0 ->
  mrows (rk_A src) = mrows (rk_A r) -> mrows (rk_B src) = mrows (rk_B r) ->
  (forall a, rkblk src a -> fst a < next m /\ ~ rkblk r a) ->
  (let k := rk_k src + rk_k r in let a := Nat.min (mrows (rk_A r)) k in let b := Nat.min (mrows (rk_B r)) k in dom a b /\ dom b a) ->
  ends (add_rkmatrix O svd (findrank_truncmode tm eps) alpha src r) m (fun r' m' =>
    rk_k r' <= rk_k src + rk_k r /\ exists D', rkrep m' r' D' /\
      within fr ab eps (mrows (rk_A r)) (mrows (rk_B r)) (fun i j => D i j + alpha * E i j)%F D').
Proof.
  intros alpha src r m D E HO HR HE Hk R1 R2 HS HD.
  destruct (C51_add_rkmatrix L O H HZ True sorted (best fr ab eps) dom svd _ Hsvd (findrank_ok tm eps) alpha src r m D E HO HR HE R1 R2 HS HD) as (r' & m' & E' & HP).
  exists r', m'. split; [exact E'|]. destruct (Nat.eqb_spec (rk_k src) 0); [contradiction|]. destruct HP as (_ & _ & H1 & _ & D' & H2 & H3). split; [exact H1|].
  exists D'. split; [exact H2|]. eapply C51_truncated_within; [exact Heps|exact H3].
Qed.

(** The same for the sum of a low-rank matrix and a dense matrix *)
Theorem C51_add_amatrix_error : forall alpha (atrans : bool) a fa r m D,
  rkown m r -> rkrep m r D -> mval m a fa -> mblk a < next m -> ~ rkblk r (mblk a, 0) ->
  (if atrans then mcols a else mrows a) = mrows (rk_A r) -> (if atrans then mrows a else mcols a) = mrows (rk_B r) ->
  (let k := Nat.min (mrows (rk_A r)) (mrows (rk_B r)) in dom k k) ->
  ends (add_amatrix_rkmatrix O svd (findrank_truncmode tm eps) alpha atrans a r) m (fun r' m' =>
    exists D', rkrep m' r' D' /\
      within fr ab eps (mrows (rk_A r)) (mrows (rk_B r)) (fun i j => D i j + alpha * tr atrans fa i j)%F D').
Proof.
  intros alpha at_ a fa r m D HO HR Ha Ba Na R1 R2 Hd.
  destruct (C51_add_amatrix_rkmatrix_partial L O H HZ True sorted (best fr ab eps) dom svd _ Hsvd (findrank_ok tm eps) alpha at_ a fa r m D HO HR Ha Ba Na R1 R2 Hd (or_introl (Hreal alpha))) as (r' & m' & E' & HP).
  exists r', m'. split; [exact E'|]. destruct HP as (_ & _ & _ & _ & D' & H2 & H3). exists D'. split; [exact H2|]. eapply C51_truncated_within; [exact Heps|exact H3].
Qed.
End Err.

(** ** With a complex factor and more columns than rows the result is wrong: whatever decomposition is
    used, and although no singular value is dropped, [B + conj(alpha) A] is computed. *)
Definition cx0 : Cf := (IZR 0, IZR 0).
Definition cx1 : Cf := (IZR 1, IZR 0).
Definition cxi : Cf := (IZR 0, IZR 1).
Definition wm : list (list Cf) := [[cx0]; [cx0; cx0]; [cx1; cx1]].
Definition wr : rkm := Rk (Mat 0 0 1 1 0 true) (Mat 1 0 2 2 0 true) 0.
Definition wa : mat := Mat 2 0 1 1 2 true.
Theorem C51_add_amatrix_rkmatrix_refuted : forall svd rank,
  svd_ok False (fun _ _ => True) (fun _ _ => True) svd -> rank_ok (fun _ _ => True) (fun n _ k => k = n) rank ->
  exists alpha a fa r (m : mem Cf) D,
    rkown m r /\ rkrep m r D /\ mval m a fa /\ mblk a < next m /\ ~ rkblk r (mblk a, 0) /\
    mrows a = mrows (rk_A r) /\ mcols a = mrows (rk_B r) /\ mrows a = 1 /\ mcols a = 2 /\
    ends (add_amatrix_rkmatrix (Cq (IZR 0)) svd rank alpha false a r) m (fun r' m' =>
      exists D', rkrep m' r' D' /\ mrows (rk_A r') = 1 /\ mrows (rk_B r') = 2 /\ D' 0 0 <> (D 0%nat 0%nat + alpha * fa 0%nat 0%nat)%F).
Proof.
  intros svd rank Hsvd Hrank. exists cxi, wa, (mof wm wa), wr, (mem_of wm), (fun _ _ => f0).
  assert (HO : rkown (mem_of wm) wr).
  { unfold rkown, mwf; cbn [rk_A rk_B rk_k mown mblk mcols mrows mld wr mem_of next wm length]. repeat split; auto; try lia; intros i j Hi Hj; cbn in Hj; lia. }
  assert (HR : rkrep (mem_of wm) wr (fun _ _ => f0)).
  { exists (fun _ _ => f0), (fun _ _ => f0). split; [intros i j Hi Hj; cbn in Hj; lia|]. split; [intros i j Hi Hj; cbn in Hj; lia|]. repeat split; reflexivity. }
  assert (HA : mval (mem_of wm) wa (mof wm wa)) by (apply mval_of; reflexivity).
  assert (HB : ~ rkblk wr (mblk wa, 0)) by (intros [X|X]; cbn in X; lia).
  split; [exact HO|]. split; [exact HR|]. split; [exact HA|]. split; [cbn; lia|]. split; [exact HB|]. do 4 (split; [reflexivity|]).
  destruct (C51_add_amatrix_rkmatrix_conj Cf_field (Cq (IZR 0)) (Cq_laws (IZR 0) (Rle_refl (IZR 0))) (rw_sumsq Cr Cr_laws) False (fun _ _ => True) (fun n _ k => k = n) (fun _ _ => True) svd rank Hsvd Hrank
    cxi false wa (mof wm wa) wr (mem_of wm) (fun _ _ => f0) HO HR HA ltac:(cbn; lia) HB eq_refl eq_refl I) as (r' & m' & E & H1 & H2 & _ & _ & D' & H3 & H4).
  exists r', m'. split; [exact E|]. exists D'. split; [exact H3|]. split; [exact H1|]. split; [exact H2|].
  pose proof (C51_lossless Cf_field False (fun _ _ => True) (fun n _ k => k = n) _ _ _ D' (rk_k r') ltac:(intros n s Hn l Hl; cbv beta in Hn; lia) H4 0 0 Nat.lt_0_1 Nat.lt_0_2) as E4. rewrite E4. change (mrows (rk_A wr) <? mrows (rk_B wr)) with true.
  cbn. intros X. apply (f_equal snd) in X. cbn in X. lra.
Qed.

(** ** The hypotheses can be met.  A decomposition without orthogonality exists for matrices of any
    size, and a singular value decomposition for matrices with at most one row and column, which is all
    that is needed for matrices of rank one of any size. *)
Example C51_svd : svd_ok False (fun _ _ => True) (fun _ _ => True) (@triv_svd Cf) /\ rank_ok (fun _ _ => True) (fun n _ k => k = n) (@triv_rank Cf) /\
  svd_ok True (@sorted RO) (fun r c => r <= 1 /\ c <= 1) (@one_svd RO).
Proof. split; [apply triv_svd_ok, Cf_field|]. split; [apply triv_rank_ok|]. apply (one_svd_ok RO_laws). reflexivity. Qed.

Definition rxm : list (list RO) := map (map IZR) [[1; 2; 2]; [3; 4]; [1; 0; 1]; [0; 1]; [1; 2; 3; 4; 5; 6]]%Z.
Definition rxr : rkm := Rk (Mat 0 0 3 3 1 true) (Mat 1 0 2 2 1 true) 1.
Definition rxs : rkm := Rk (Mat 2 0 3 3 1 true) (Mat 3 0 2 2 1 true) 1.
Definition rxa : mat := Mat 4 0 3 3 2 true.
Example C51_hyps : let m := mem_of rxm in
  field_laws Rf /\ qlaws (Rq (IZR 0)) /\ exact_zero (Rq (IZR 0)) /\
  rkown m rxr /\ rkrep m rxr (lowrank 1 (mof rxm (rk_A rxr)) (mof rxm (rk_B rxr))) /\
  rkrep m rxs (lowrank 1 (mof rxm (rk_A rxs)) (mof rxm (rk_B rxs))) /\
  (forall a, rkblk rxs a -> fst a < next m /\ ~ rkblk rxr a) /\
  mval m rxa (mof rxm rxa) /\ mwf rxa /\ disj (inrk rxr) (inm rxa) /\ ~ rkblk rxr (mblk rxa, 0) /\
  Nat.min (mrows (rk_A rxr)) (rk_k rxr) <= 1 /\ Nat.min (mrows (rk_B rxr)) (rk_k rxr) <= 1.
Proof.
  cbv zeta. split; [exact Rf_field|]. split; [apply Rq_laws; lra|]. split; [exact (rw_sumsq Rr Rr_laws)|].
  assert (M : forall A, (mblk A <? length rxm) && (mrows A <=? mld A) && (moff A + mld A * (mcols A - 1) + mrows A <=? length (nth (mblk A) rxm [])) = true -> mval (mem_of rxm) A (mof rxm A)) by (intros; apply mval_of; assumption).
  assert (HA : mval (mem_of rxm) (rk_A rxr) (mof rxm (rk_A rxr))) by (apply M; reflexivity).
  assert (HB : mval (mem_of rxm) (rk_B rxr) (mof rxm (rk_B rxr))) by (apply M; reflexivity).
  split. { unfold rkown, mwf; cbn [rk_A rk_B rk_k mown mblk mcols mrows mld rxr mem_of next rxm length map]. repeat split; auto; try lia; eapply mval_alloc; eassumption. }
  split. { exists (mof rxm (rk_A rxr)), (mof rxm (rk_B rxr)). repeat split; auto. }
  split. { exists (mof rxm (rk_A rxs)), (mof rxm (rk_B rxs)). split; [apply M; reflexivity|]. split; [apply M; reflexivity|]. repeat split; auto. }
  split. { intros a [X|X]; cbn in X; cbn; unfold rkblk; cbn; lia. }
  split; [apply M; reflexivity|]. split; [unfold mwf; cbn; lia|].
  split. { intros a [Ha|Ha] Hb; apply inm_blk in Ha, Hb; cbn in *; congruence. }
  split. { intros [X|X]; cbn in X; lia. } cbn. lia.
Qed.

Print Assumptions C51_trunc_rkmatrix.
Print Assumptions C51_add_rkmatrix.
Print Assumptions C51_add_amatrix_rkmatrix_partial.
Print Assumptions C51_add_amatrix_rkmatrix_conj.
Print Assumptions C51_add_amatrix_rkmatrix_refuted.
Print Assumptions C51_add_rkmatrix_amatrix.
Print Assumptions C51_lossless.
Print Assumptions C51_truncated_within.
Print Assumptions C51_trunc_error.
Print Assumptions C51_add_error.
Print Assumptions C51_add_amatrix_error.
