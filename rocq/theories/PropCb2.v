(** * Properties C31 and C32: transformations of matrices by cluster bases *)
From Coq Require Import Arith Lia List Bool ZArith.
From Verif Require Import Fld Inst Ord OrdInst Prog Arr View Spec Loop Cluster Block Avector Amatrix AmatrixP AmatrixP2 Hmatrix HmSpec HmP
  Clusterbasis CbSpec CbP CbP2 CbP3 CbP4 CbP5 CbP9 CbP10 PropCb.
Import ListNotations.
Open Scope nat_scope.

Section C32.
Context {K : fops} {G : ofops} (L : ring_laws K).
Implicit Types (m : mem K) (cb c : cbasis G) (Xp Xt Yp Yt : mat) (F Y C B : nat -> nat -> K).

Let allr : forall P, rdok (fun _ => True) (fun _ => True) P := fun P a _ => or_introl I.
Let allw : forall P, wrok (fun _ => True) P := fun P a _ => I.

(** ** C32: every column of the matrix is transformed like a vector; compare [C30_forward], where
    [fwd_of] and [bwd_of] appear with the same arguments. *)
Theorem C32_forward : forall cb Xp Xt F m,
  cbok cb -> cbinit m cb -> mrows Xp = cb_size cb -> mcols Xp = mcols Xt -> mval m Xp F ->
  mrows Xt = cb_ktree cb -> mwf Xt -> malloc m Xt -> disj (inm Xp) (inm Xt) -> disj (incb cb) (inm Xt) ->
  ends (forward_clusterbasis_amatrix cb Xp Xt) m (fun _ m' => exists Y, mval m' Xt Y /\
    (forall j, j < mcols Xt -> fwd_of (cbmat m) cb (fun p => F p j) (fun o => Y o j)) /\ keeps (inm Xt) m m').
Proof.
  intros cb Xp Xt F m H1 H2 H3 H4 H5 H6 H7 H8 H9 H10. apply wp_ends. rewrite fwdm_false.
  eapply (wp_fwdm L false) with (X := F); eauto. exists F; auto.
Qed.
(** The rows of the input hold the adjoint vectors. *)
Theorem C32_forward_trans : forall cb Xp Xt F m,
  cbok cb -> cbinit m cb -> mcols Xp = cb_size cb -> mrows Xp = mcols Xt -> mval m Xp F ->
  mrows Xt = cb_ktree cb -> mwf Xt -> malloc m Xt -> disj (inm Xp) (inm Xt) -> disj (incb cb) (inm Xt) ->
  ends (forward_clusterbasis_trans_amatrix cb Xp Xt) m (fun _ m' => exists Y, mval m' Xt Y /\
    (forall j, j < mcols Xt -> fwd_of (cbmat m) cb (fun p => fconj (F j p)) (fun o => Y o j)) /\ keeps (inm Xt) m m').
Proof.
  intros cb Xp Xt F m H1 H2 H3 H4 H5 H6 H7 H8 H9 H10. apply wp_ends. rewrite fwdm_true.
  eapply (wp_fwdm L true) with (X := fun p j => fconj (F j p)); eauto. exists F; auto.
Qed.
Theorem C32_backward : forall cb Yt Yp Y B m,
  cbok cb -> cbinit m cb -> mrows Yp = cb_size cb -> mcols Yp = mcols Yt -> mwf Yp -> mval m Yp B ->
  mrows Yt = cb_ktree cb -> mwf Yt -> mval m Yt Y -> disj (inm Yt) (inm Yp) -> disj (incb cb) (inm Yt) -> disj (incb cb) (inm Yp) ->
  ends (backward_clusterbasis_amatrix cb Yt Yp) m (fun _ m' =>
    mval m' Yp (fun p j => B p j + bwd_of (cbmat m) cb (fun o => Y o j) p)%F /\ keeps (fun a => inm Yt a \/ inm Yp a) m m').
Proof. intros cb Yt Yp Y B m H1 H2 H3 H4 H5 H6 H7 H8 H9 H10 H11 H12. apply wp_ends. eapply (wp_bwdm L); eauto. Qed.
(** Missing for the full property: bases with more than one level, where the code is wrong
    (see [C32_backward_trans_refuted]). *)
Theorem C32_backward_trans_partial : forall cb Yt Yp Y B m,
  cb_son cb = [] ->
  cbok cb -> cbinit m cb -> mcols Yp = cb_size cb -> mrows Yp = mcols Yt -> mwf Yp -> mval m Yp B ->
  mrows Yt = cb_ktree cb -> mwf Yt -> mval m Yt Y -> disj (inm Yt) (inm Yp) -> disj (incb cb) (inm Yt) -> disj (incb cb) (inm Yp) ->
  ends (backward_clusterbasis_trans_amatrix cb Yt Yp) m (fun _ m' =>
    mval m' Yp (fun j p => B j p + fconj (bwd_of (cbmat m) cb (fun o => Y o j) p))%F /\ keeps (fun a => inm Yt a \/ inm Yp a) m m').
Proof. intros cb Yt Yp Y B m H0 H1 H2 H3 H4 H5 H6 H7 H8 H9 H10 H11 H12. apply wp_ends. eapply (wp_bwdm_trans_leaf L); eauto. Qed.

(** ** C31: V^* X and Y + V C for the matrix V of the root.  The other rows of the coefficient
    matrix are workspace. *)
Theorem C31_compress_amatrix : forall cb Xp Xt F m,
  cbok cb -> cbinit m cb -> mrows Xp = cb_size cb -> mcols Xp = mcols Xt -> mval m Xp F ->
  cb_kbranch cb <= mrows Xt -> mwf Xt -> malloc m Xt -> disj (inm Xp) (inm Xt) -> disj (incb cb) (inm Xt) ->
  ends (compress_clusterbasis_amatrix cb Xp Xt) m (fun _ m' =>
    (forall q j, q < cb_k cb -> j < mcols Xt -> get m' (ma Xt q j) = Val (sum (cb_size cb) (fun p => fconj (cbmat m cb p q) * F p j)%F)) /\
    keeps (inm (subm Xt 0 (cb_kbranch cb) 0 (mcols Xt))) m m').
Proof.
  intros cb Xp Xt F m H1 H2 H3 H4 H5 H6 H7 H8 H9 H10. apply wp_ends. eapply (wp_compressm L); eauto.
  intros m' Hv _ Hk. split; [|exact Hk]. intros q j Hq Hj. specialize (Hv q j Hq Hj). rewrite rb_ma in Hv. exact Hv.
Qed.
Theorem C31_expand_amatrix : forall cb Yt Yp C B m,
  cbok cb -> cbinit m cb -> mrows Yp = cb_size cb -> mcols Yp = mcols Yt -> mwf Yp -> mval m Yp B ->
  mrows Yt = cb_kbranch cb -> mwf Yt -> malloc m Yt -> (forall q j, q < cb_k cb -> j < mcols Yt -> get m (ma Yt q j) = Val (C q j)) ->
  disj (inm Yt) (inm Yp) -> disj (incb cb) (inm Yt) -> disj (incb cb) (inm Yp) ->
  ends (expand_clusterbasis_amatrix cb Yt Yp) m (fun _ m' =>
    mval m' Yp (fun p j => B p j + sum (cb_k cb) (fun q => cbmat m cb p q * C q j))%F /\
    (forall q j, q < cb_k cb -> j < mcols Yt -> get m' (ma Yt q j) = Val (C q j)) /\ keeps (fun a => inm Yt a \/ inm Yp a) m m').
Proof.
  intros cb Yt Yp C B m H1 H2 H3 H4 H5 H6 H7 H8 H9 H10 H11 H12 H13. apply wp_ends. eapply (wp_expandm L) with (C := C); eauto.
  - intros q j Hq Hj. rewrite rb_ma. apply H10; assumption.
  - intros m' Hv Hc _ Hk. split; [exact Hv|]. split; [|exact Hk]. intros q j Hq Hj. specialize (Hc q j Hq Hj). rewrite rb_ma in Hc. exact Hc.
Qed.
End C32.

(** ** Example: the basis of [PropCb] and matrices with two columns *)
Definition xcM : list (list GQf) := xcm ++
  [ [gq 1 0; gq 2 3; gq 0 1; gq 1 1; gq 0 0; gq 2 2];
    [gq 1 0; gq 2 0; gq 3 0; gq 4 0; gq 5 0; gq 6 0; gq 7 0; gq 8 0; gq 1 1; gq 2 1; gq 3 1; gq 4 1; gq 5 1; gq 6 1; gq 7 1; gq 8 1];
    [gq 1 1; gq 0 0; gq 2 0; gq 1 2; gq 0 3; gq 2 4];
    [gq 4 0; gq 0 2; gq 0 0; gq 0 0; gq 0 0; gq 3 0; gq 0 1; gq 0 0; gq 0 0; gq 0 0] ].
Lemma mat_initM A a (f : nat -> nat -> GQf) : mval (mem_of xcM) A f -> inm A a -> exists v, get (mem_of xcM) a = Val v.
Proof. intros H (i & j & Hi & Hj & ->). eexists. apply H; assumption. Qed.
Example C32_hyps : let m := mem_of xcM in
  let X := Mat 15 0 3 3 2 true in let Xa := Mat 15 0 2 2 3 true in let Xt := Mat 16 0 8 8 2 true in
  let Y := Mat 17 0 3 3 2 true in let Ya := Mat 17 0 2 2 3 true in let Xb := Mat 18 0 5 5 2 true in
  cbok xc /\ cbinit m xc /\ (forall A, In A [X; Xa; Xt; Y; Ya; Xb] -> mwf A /\ mval m A (mof xcM A) /\ disj (incb xc) (inm A)) /\
  mrows X = cb_size xc /\ mcols Xa = cb_size xc /\ mrows Xt = cb_ktree xc /\ mrows Xb = cb_kbranch xc /\
  disj (inm X) (inm Xt) /\ disj (inm Xa) (inm Xt) /\ disj (inm Xt) (inm Y) /\ disj (inm Xb) (inm Y) /\ disj (inm X) (inm Xb).
Proof.
  assert (B1 : forall a, incb xc a -> fst a < 7).
  { intros a H. apply xc_in in H as (A & H & Ha). apply inm_blk in Ha. rewrite Ha. cbn in H. decompose [or] H; try contradiction; subst A; cbn; lia. }
  cbv zeta. split; [exact xc_ok|].
  split. { intros a H. apply xc_in in H as (A & H & Ha). cbn in H. decompose [or] H; try contradiction; subst A; eapply mat_initM; try exact Ha; apply mval_of; reflexivity. }
  split. { intros A H. cbn in H. decompose [or] H; try contradiction; subst A; (split; [unfold mwf; cbn; lia|]); (split; [apply mval_of; reflexivity|]);
    intros a Ha Hb; apply B1 in Ha; apply inm_blk in Hb; cbn in *; lia. }
  do 4 (split; [reflexivity|]).
  repeat split; intros a Ha Hb; apply inm_blk in Ha, Hb; cbn in *; congruence.
Qed.

(** ** Refutations *)
(** The transformation for adjoint targets calls the one for ordinary targets for the sons: for the
    basis and the matrices above, which meet all hypotheses, an assertion fails. *)
Theorem C32_backward_trans_refuted : let m := mem_of xcM in let Xt := Mat 16 0 8 8 2 true in let Ya := Mat 17 0 2 2 3 true in
  cbok xc /\ cbinit m xc /\ mwf Xt /\ mwf Ya /\ mval m Xt (mof xcM Xt) /\ mval m Ya (mof xcM Ya) /\ mrows Xt = cb_ktree xc /\ mcols Ya = cb_size xc /\
  mrows Ya = mcols Xt /\ disj (inm Xt) (inm Ya) /\ disj (incb xc) (inm Xt) /\ disj (incb xc) (inm Ya) /\
  fails (backward_clusterbasis_trans_amatrix xc Xt Ya) m EAssert.
Proof.
  destruct C32_hyps as (H1 & H2 & H3 & H4 & H5 & H6 & H7 & H8 & H9 & H10 & H11 & H12). cbv zeta in *.
  destruct (H3 (Mat 16 0 8 8 2 true)) as (A1 & A2 & A3); [cbn; auto 10|]. destruct (H3 (Mat 17 0 2 2 3 true)) as (B1 & B2 & B3); [cbn; auto 10|].
  split; [exact H1|]. split; [exact H2|]. split; [exact A1|]. split; [exact B1|]. split; [exact A2|]. split; [exact B2|]. do 3 (split; [reflexivity|]).
  split; [intros a Ha Hb; apply inm_blk in Ha, Hb; cbn in *; congruence|]. split; [exact A3|]. split; [exact B3|].
  vm_compute. reflexivity.
Qed.
(** In the parallel version the sons share the rows of the coefficient matrix, so that even the
    sequential execution of its loops yields something different from V^* X. *)
Theorem C31_compress_parallel_refuted : let m := mem_of xcM in let X := Mat 15 0 3 3 2 true in let Xb := Mat 18 0 5 5 2 true in
  cbok xc /\ cbinit m xc /\ mwf X /\ mwf Xb /\ mval m X (mof xcM X) /\ mval m Xb (mof xcM Xb) /\ mrows X = cb_size xc /\ mrows Xb = cb_kbranch xc /\
  mcols X = mcols Xb /\ disj (inm X) (inm Xb) /\ disj (incb xc) (inm Xb) /\
  match run (compress_parallel_clusterbasis_amatrix xc X Xb) m with
  | Ok (_, m') => get m' (ma Xb 0 0) <> Val (sum (cb_size xc) (fun p => fconj (cbmat m xc p 0) * mof xcM X p 0)%F)
  | Err _ => False
  end.
Proof.
  destruct C32_hyps as (H1 & H2 & H3 & H4 & H5 & H6 & H7 & H8 & H9 & H10 & H11 & H12). cbv zeta in *.
  destruct (H3 (Mat 15 0 3 3 2 true)) as (A1 & A2 & A3); [cbn; auto 10|]. destruct (H3 (Mat 18 0 5 5 2 true)) as (B1 & B2 & B3); [cbn; auto 10|].
  split; [exact H1|]. split; [exact H2|]. split; [exact A1|]. split; [exact B1|]. split; [exact A2|]. split; [exact B2|]. do 3 (split; [reflexivity|]).
  split; [exact H12|]. split; [exact B3|].
  vm_compute. intros H. discriminate H.
Qed.

Print Assumptions C32_forward.
Print Assumptions C32_forward_trans.
Print Assumptions C32_backward.
Print Assumptions C32_backward_trans_partial.
Print Assumptions C31_compress_amatrix.
Print Assumptions C31_expand_amatrix.
Print Assumptions C32_backward_trans_refuted.
Print Assumptions C31_compress_parallel_refuted.
