(** * Property C56: inversion of H-matrices *)
From Coq Require Import Arith Lia List Bool Ring NArith.
From Coq Require Import Reals Lra.
From Verif Require Import Fld Inst Ord OrdInst Prog Arr View Loop Line Spec Cluster Block BlockP Avector Amatrix AmatrixP AmatrixP2 Rkmatrix RkSpec RkP Factor FactorSpec FactorP Chol CholSpec Qr QrSpec Lr LrP CholInst QrInst
  CopSpec OrthoP Htrunc HtSpec HtP HtInst Hmatrix HmSpec HmP HmP3 HmP4 HmP5 HlibSpec Harith HaSpec HaP HaP2 HaP3 HaddSpec HmvP Hadd HaddP HaddP5 Hmul HmulP3 HmulP4 HmulP5 ParP Hfac HfacSpec HfacP2 HfacP3 HfacP4 HfacP5
  Hinv HinvSpec HinvP HinvP2 HinvP4 HinvP5 PropHm PropHm2 PropHarith PropHadd PropHfac.
Import ListNotations.
Local Open Scope nat_scope.

Section Inv.
Context {K : fops} {G : ofops} (L : field_laws K) (O : qops K) (H : qlaws O) (HZ : exact_zero O).
Context (orth : Prop) (good : nat -> (nat -> K) -> Prop) (chosen : nat -> (nat -> K) -> nat -> Prop).
Context (svd : mat -> vec -> mat -> mat -> prog K unit) (rank : vec -> prog K nat) (Hsvd : svd_ok orth good (fun _ _ => True) svd) (Hrank : rank_ok good chosen rank).
Context (Hless : forall n s k, chosen n s k -> forall l, k <= l < n -> s l = f0).
Local Notation hmx := (hmatrix G).
Implicit Types (m : mem K) (a w : hmx) (A B : nat -> nat -> K).

(** The inverse of an H-matrix whose leading principal submatrices are regular: the matrix is overwritten
    by the inverse.  The entries of the working storage do not matter.  The block structures of both
    matrices stay the same, and only their storage is changed. *)
Theorem C56_invert_hmatrix : forall a w A m,
  hrep m a A -> hmut m a -> hstd a -> hpos a -> (N.of_nat (hrows a) < 2 ^ 32)%N ->
  hown m w -> hstd w -> hpos w -> hfits a w -> disj (hfp a) (hfp w) ->
  (forall j, j <= hrows a -> regular j A) ->
  ends (invert_hmatrix O svd rank a w) m (fun r m' => exists B,
    hrep m' (fst r) B /\
    (forall i j, i < hrows a -> j < hrows a -> mmul (hrows a) A B i j = idf i j /\ mmul (hrows a) B A i j = idf i j) /\
    hmut m' (fst r) /\ hlike a (fst r) /\ hroom m' (snd r) /\ hmut m' (snd r) /\ hlike w (snd r) /\ disj (hfp (fst r)) (hfp (snd r)) /\
    moves m (fun c => hfp a c \/ hfp w c) (fun c => hfp (fst r) c \/ hfp (snd r) c) m').
Proof.
  intros a w A m H1 H2 H3 H4 H5 [W1 W2] W3 W4 Hf Hd Hr. destruct (lr_exists L (hrows a) A) as (F & HF & Hnz); [|exact H5|exact Hr|].
  - apply (H4 a). destruct a; cbn; auto.
  - destruct (inverse_exists L O H HZ (hrows a) A (Hr _ (le_n _))) as (B & HB). apply wp_ends.
    eapply (wp_invert_h L O H HZ orth good chosen _ svd rank Hsvd Hrank (fun _ _ => Logic.I) Hless a a w m A F B); try assumption.
    + eapply hlike_refl. exact H2.
    + apply str_room, W1.
    + apply own_mut; assumption.
    + intros a' w' m' C1 C2 C3 C4 C5 C6 C7 C8. exists B. cbn [fst snd]. split; [exact C1|]. split; [intros i j Hi Hj; split; apply HB; assumption|]. auto 10.
Qed.

Lemma hsim_like a : forall w w', hsim a w -> hlike w w' -> hsim a w'.
Proof.
  induction a as [a IH] using hsize_ind. intros w w' HS HL. destruct HS as [rc cc r r' ds ds'|rc cc f f' ds ds'|rc cc l l' rs cs ds ds' HF]; inversion HL as [| |? ? ? l2 ? ? ? HF2]; subst; constructor.
  assert (HI : forall x, In x l -> forall w w', hsim x w -> hlike w w' -> hsim x w') by (intros x Hx; apply (IH l x eq_refl Hx)). clear - HF HF2 HI. revert l2 HF2. induction HF as [|x y l l' Hxy HF IHF]; intros l2 HF2; inversion HF2; subst; constructor.
  - eapply HI; [left; reflexivity|eassumption|eassumption].
  - apply IHF; [intros; eapply HI; [right; eassumption|eassumption|eassumption]|assumption].
Qed.

(** The same with working storage created by [clonestructure_hmatrix]. *)
Theorem C56_invert_clonestructure : forall a A m,
  hrep m a A -> hown m a -> hstd a -> hpos a -> hdiag a -> (N.of_nat (hrows a) < 2 ^ 32)%N ->
  (forall j, j <= hrows a -> regular j A) ->
  ends (w <- clonestructure_hmatrix a ;; invert_hmatrix O svd rank a w) m (fun r m' => exists B,
    hrep m' (fst r) B /\
    (forall i j, i < hrows a -> j < hrows a -> mmul (hrows a) A B i j = idf i j /\ mmul (hrows a) B A i j = idf i j) /\
    hlike a (fst r) /\ hsim a (snd r) /\
    (forall c, fst c < next m -> ~ hfp a c -> get m' c = get m c)).
Proof.
  intros a A m H1 [H2 H2'] H3 H4 H5 H6 Hr. destruct (C27_clonestructure a m H2) as (w & m1 & Hrun & S1 & _ & (S2 & S2') & _ & S3 & S4).
  assert (Hb : forall x, In x (hblocks a) -> x < next m) by (intros x; apply hstr_bound, H2).
  destruct (C56_invert_hmatrix a w A m1) as (r & m2 & Hrun2 & B & C1 & C2 & C3 & C4 & C5 & C6 & C7 & C8 & (M1 & M2 & M3 & M4 & M5)).
  - eapply hrep_blk; [exact H1|exact S4|]. intros x Hx. apply Hb in Hx. cbv beta. lia.
  - apply own_mut; [|exact H2'|exact H4]. eapply hstr_blk; [exact H2|exact S4|]. intros x Hx. apply Hb in Hx. cbv beta. lia.
  - exact H3.
  - exact H4.
  - exact H6.
  - split; assumption.
  - eapply hsim_std; eassumption.
  - eapply hsim_pos; eassumption.
  - apply hsim_fits; assumption.
  - intros c X1 X2. apply hfp_block in X1, X2. apply Hb in X1. apply S3 in X2. lia.
  - exact Hr.
  - exists r, m2. split; [rewrite run_bind, Hrun; exact Hrun2|]. exists B. split; [exact C1|]. split; [exact C2|]. split; [exact C4|]. split; [eapply hsim_like; eassumption|].
    intros c Hc Hn. destruct S4 as [Sn Sk]. rewrite M4; [apply Sk; cbv beta; lia|lia|]. intros [X|X]; [exact (Hn X)|]. apply hfp_block, S3 in X. lia.
Qed.
End Inv.

(** The hypotheses hold for the 2 x 2 block matrices of PropHadd.v: [yh 5], with a dense diagonal and a
    low-rank leaf below it, is inverted, and [yh 0] is the working storage. *)
Lemma yh_own o : o = 0 \/ o = 5 -> hown (mem_of ym) (yh o).
Proof.
  intros Ho. split.
  - eapply (hstr_super _ _ _ _ 2 2 _ (fun i => 1 + i) (fun i => 1 + i)); try reflexivity; try lia.
    + intros [|[|i]] [|[|j]] s Hi Hj Hs; try lia; cbn in Hs; injection Hs as <-; split; reflexivity.
    + intros s Hs. cbn [In] in Hs.
      assert (Hf : forall i j, i < 2 -> j < 2 -> i <= j -> malloc (mem_of ym) (yf o i j)).
      { intros i j Hi Hj Hij. assert (HV : mval (mem_of ym) (yf o i j) (mof ym (yf o i j))) by (apply mval_of; destruct Ho as [->| ->]; destruct i as [|[|i]]; destruct j as [|[|j]]; try lia; reflexivity).
        intros p q Hp Hq. rewrite (HV p q Hp Hq). discriminate. }
      decompose [or] Hs; try contradiction; subst s; constructor; try reflexivity; try (apply Hf; lia); try (destruct Ho as [->| ->]; unfold mwf; cbn; lia).
      destruct Ho as [->| ->]; apply y_own; try reflexivity; cbn; lia.
  - cbn. destruct Ho as [->| ->]; repeat constructor; cbn; lia.
Qed.
Example C56_hyps : let m := mem_of ym in
  hrep m (yh 5) (yD 5) /\ hmut m (yh 5) /\ hown m (yh 5) /\ hstd (yh 5) /\ hpos (yh 5) /\ hdiag (yh 5) /\ (N.of_nat (hrows (yh 5)) < 2 ^ 32)%N /\
  hown m (yh 0) /\ hstd (yh 0) /\ hpos (yh 0) /\ hfits (yh 5) (yh 0) /\ disj (hfp (yh 5)) (hfp (yh 0)) /\
  (forall j, j <= hrows (yh 5) -> regular j (yD 5)).
Proof.
  cbv zeta. split; [apply yh_rep; auto|]. split; [apply yh_mut; auto|]. split; [apply yh_own; auto|]. split; [apply yh_std|]. split; [apply yh_pos|]. split; [apply yh_diag|]. split; [reflexivity|].
  split; [apply yh_own; auto|]. split; [apply yh_std|]. split; [apply yh_pos|].
  split. { apply hfits_super. intros [|[|j]] s t Hj Hs Ht; try lia; cbn in Hs, Ht; injection Hs as <-; injection Ht as <-; apply hfits_full; reflexivity. }
  split. { intros c Hc Hd. apply yh_fp in Hc, Hd. lia. }
  intros j Hj. cbn in Hj. apply (lrinv_regular Rf_field j yF); [|intros i Hi; apply yF_nz; lia]. apply (lrinv_lead Rf_field 3 3 j); [exact yF_lr|exact Hj|exact Hj].
Qed.

Print Assumptions C56_invert_hmatrix.
Print Assumptions C56_invert_clonestructure.
