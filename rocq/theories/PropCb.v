(** * Properties C30, C31 (vectors) and C09: transformations of cluster bases *)
From Coq Require Import Arith Lia List Bool ZArith.
From Verif Require Import Fld Inst Ord OrdInst Prog Arr View Spec Loop Cluster Block Avector Amatrix AmatrixP2 Hmatrix HmSpec HmP
  Par ParP Clusterbasis CbSpec CbP CbP2 CbP3 CbP4 CbP5 CbP6 CbP7 CbP8.
Import ListNotations.

Section C30.
Context {K : fops} {G : ofops} (L : ring_laws K).
Implicit Types (m : mem K) (cb c : cbasis G) (x y xt yt : vec) (f g X Y : nat -> K).

Let allr : forall P, rdok (fun _ => True) (fun _ => True) P := fun P a _ => or_introl I.
Let allw : forall P, wrok (fun _ => True) P := fun P a _ => I.

Lemma src_at idx m x off n ip f : idx_at idx off n ip (vdim x) -> vval m x f -> perm_src idx m x off n ip (fun p => f (ip p)).
Proof. intros H Hx p Hp. destruct (H p Hp) as [A B]. split; [exact A|]. split; [exact B|apply Hx, B]. Qed.
Lemma cells_in y ip n a : (forall p, p < n -> ip p < vdim y) -> cells (fun p => va y (ip p)) n a -> inv y a.
Proof. intros H (p & Hp & ->). exists (ip p). split; [apply H, Hp|reflexivity]. Qed.
Lemma idx_lt idx off n ip dim : idx_at idx off n ip dim -> forall p, p < n -> ip p < dim.
Proof. intros H p Hp. apply (H p Hp). Qed.

(** ** Forward transformation: [xt] receives V_t^* x|t for all clusters t of the basis, where
    [cbmat m cb] is the matrix V_t given by leaf matrices and transfer matrices, and the entries of x
    for the leaf clusters. *)
Theorem C30_forward : forall idx cb x xt ip f m,
  cbok cb -> cbplaced cb -> cbinit m cb -> idx_at idx (cb_off cb) (cb_size cb) ip (vdim x) -> vval m x f ->
  vdim xt = cb_ktree cb -> valloc m xt -> disj (inv x) (inv xt) -> disj (incb cb) (inv xt) ->
  ends (forward_clusterbasis_avector idx cb x xt) m (fun _ m' =>
    exists Y, vval m' xt Y /\ fwd_of (cbmat m) cb (fun p => f (ip p)) Y /\ keeps (inv xt) m m').
Proof.
  intros idx cb x xt ip f m H1 H2 H3 H4 H5 H6 H7 H8 H9. apply wp_ends.
  eapply (wp_forward L); eauto using src_at.
Qed.
Theorem C30_forward_nopermutation : forall cb xp xt f m,
  cbok cb -> cbinit m cb -> vdim xp = cb_size cb -> vval m xp f ->
  vdim xt = cb_ktree cb -> valloc m xt -> disj (inv xp) (inv xt) -> disj (incb cb) (inv xt) ->
  ends (forward_nopermutation_clusterbasis_avector cb xp xt) m (fun _ m' =>
    exists Y, vval m' xt Y /\ fwd_of (cbmat m) cb f Y /\ keeps (inv xt) m m').
Proof. intros cb xp xt f m H1 H2 H3 H4 H5 H6 H7 H8. apply wp_ends. eapply (wp_forward_nop L); eauto. Qed.
(** With separate matrices for all clusters. *)
Theorem C30_forward_notransfer : forall idx cb x xt ip f m,
  cbok cb -> vsok cb -> cbplaced cb -> vsinit m cb -> idx_at idx (cb_off cb) (cb_size cb) ip (vdim x) -> vval m x f ->
  vdim xt = cb_ktree cb -> valloc m xt -> disj (inv x) (inv xt) -> disj (invs cb) (inv xt) ->
  vblk x < next m -> vblk xt < next m -> (forall a, invs cb a -> fst a < next m) ->
  ends (forward_notransfer_clusterbasis_avector idx cb x xt) m (fun _ m' =>
    exists Y, vval m' xt Y /\ fwd_of (fun c => mfun m (cb_V c)) cb (fun p => f (ip p)) Y /\ keeps (inv xt) m m').
Proof.
  intros idx cb x xt ip f m H1 H2 H3 H4 H5 H6 H7 H8 H9 H10 H11 H12 H13. apply wp_ends.
  eapply (wp_forward_notransfer L); eauto using src_at.
Qed.

(** ** Backward transformation: y|t <- y|t + V_t y_t for all clusters, and the coefficients of the
    leaves are added; [yt] is used as workspace. *)
Theorem C30_backward : forall idx cb yt y ip Y g m,
  cbok cb -> cbplaced cb -> cbinit m cb -> idx_at idx (cb_off cb) (cb_size cb) ip (vdim y) -> injn ip (cb_size cb) -> vval m y g ->
  vdim yt = cb_ktree cb -> vval m yt Y -> disj (inv yt) (inv y) -> disj (incb cb) (inv yt) -> disj (incb cb) (inv y) ->
  ends (backward_clusterbasis_avector idx cb yt y) m (fun _ m' =>
    (forall p, p < cb_size cb -> get m' (va y (ip p)) = Val (g (ip p) + bwd_of (cbmat m) cb Y p)%F) /\
    keeps (fun a => inv yt a \/ cells (fun p => va y (ip p)) (cb_size cb) a) m m').
Proof.
  intros idx cb yt y ip Y g m H1 H2 H3 H4 H5 H6 H7 H8 H9 H10 H11. apply wp_ends.
  pose proof (fun a => cells_in y ip (cb_size cb) a (idx_lt _ _ _ _ _ H4)) as Hc.
  eapply (wp_backward L) with (B := fun p => g (ip p)); eauto.
  - exact (src_at _ _ _ _ _ _ _ H4 H6).
  - intros a Ha Hb. exact (H9 a Ha (Hc a Hb)).
  - intros a Ha Hb. exact (H11 a Ha (Hc a Hb)).
Qed.
Theorem C30_backward_nopermutation : forall cb yt yp Y g m,
  cbok cb -> cbinit m cb -> vdim yp = cb_size cb -> vval m yp g ->
  vdim yt = cb_ktree cb -> vval m yt Y -> disj (inv yt) (inv yp) -> disj (incb cb) (inv yt) -> disj (incb cb) (inv yp) ->
  ends (backward_nopermutation_clusterbasis_avector cb yt yp) m (fun _ m' =>
    vval m' yp (fun p => g p + bwd_of (cbmat m) cb Y p)%F /\ keeps (fun a => inv yt a \/ inv yp a) m m').
Proof. intros cb yt yp Y g m H1 H2 H3 H4 H5 H6 H7 H8 H9. apply wp_ends. eapply (wp_backward_nop L); eauto. Qed.
Theorem C30_backward_notransfer : forall idx cb yt y ip Y g m,
  cbok cb -> vsok cb -> cbplaced cb -> vsinit m cb -> idx_at idx (cb_off cb) (cb_size cb) ip (vdim y) -> injn ip (cb_size cb) -> vval m y g ->
  vdim yt = cb_ktree cb -> vval m yt Y -> disj (inv yt) (inv y) -> disj (invs cb) (inv y) ->
  vblk yt < next m -> vblk y < next m -> (forall a, invs cb a -> fst a < next m) ->
  ends (backward_notransfer_clusterbasis_avector idx cb yt y) m (fun _ m' =>
    (forall p, p < cb_size cb -> get m' (va y (ip p)) = Val (g (ip p) + bwd_of (fun c => mfun m (cb_V c)) cb Y p)%F) /\
    keeps (cells (fun p => va y (ip p)) (cb_size cb)) m m').
Proof.
  intros idx cb yt y ip Y g m H1 H2 H3 H4 H5 H6 H7 H8 H9 H10 H11 H12 H13 H14. apply wp_ends.
  pose proof (fun a => cells_in y ip (cb_size cb) a (idx_lt _ _ _ _ _ H5)) as Hc.
  eapply (wp_backward_notransfer L) with (B := fun p => g (ip p)); eauto.
  - exact (src_at _ _ _ _ _ _ _ H5 H7).
  - intros a Ha Hb. exact (H10 a Ha (Hc a Hb)).
  - intros a Ha Hb. exact (H11 a Ha (Hc a Hb)).
Qed.

(** The two transformations are adjoint, for any choice of the matrices. *)
Theorem C30_adjoint : forall (M : cbasis G -> nat -> nat -> K) cb X Y C, cbok cb -> fwd_of M cb X Y ->
  dot (cb_size cb) X (bwd_of M cb C) = dot (cb_ktree cb) Y C.
Proof. intros. apply (adjoint L); assumption. Qed.

(** The represented matrix: leaf matrices, and V_t|t' = V_t' E_t' for the sons t' of t. *)
Theorem C30_nested : forall m cb i s p q, nth_error (cb_son cb) i = Some s -> p < cb_size s ->
  cbmat m cb (nsum i (at_ cb_size (cb_son cb)) + p) q = sum (cb_k s) (fun r => cbmat m s p r * mfun m (cb_E s) r q)%F.
Proof. intros. apply cbmat_node; assumption. Qed.

(** ** C09: the parallel versions compute the same for every interleaving of the threads, every
    parallel depth. *)
Theorem C09_forward_parallel : forall idx cb x xt ip f pardepth m,
  cbok cb -> cbplaced cb -> cbinit m cb -> idx_at idx (cb_off cb) (cb_size cb) ip (vdim x) -> vval m x f ->
  vdim xt = cb_ktree cb -> valloc m xt -> disj (inv x) (inv xt) -> disj (incb cb) (inv xt) ->
  exists m', deterministic m (forward_parallel_clusterbasis_avector idx cb x xt pardepth) m' /\
    exists Y, vval m' xt Y /\ fwd_of (cbmat m) cb (fun p => f (ip p)) Y /\ keeps (inv xt) m m'.
Proof. intros idx cb x xt ip f pd m H1 H2 H3 H4 H5 H6 H7 H8 H9. eapply wpt_det, (wpt_forward L); eauto using src_at. Qed.
Theorem C09_backward_parallel : forall idx cb yt y ip Y g pardepth m,
  cbok cb -> cbplaced cb -> cbinit m cb -> idx_at idx (cb_off cb) (cb_size cb) ip (vdim y) -> injn ip (cb_size cb) -> vval m y g ->
  vdim yt = cb_ktree cb -> vval m yt Y -> disj (inv yt) (inv y) -> disj (incb cb) (inv yt) -> disj (incb cb) (inv y) ->
  exists m', deterministic m (backward_parallel_clusterbasis_avector idx cb yt y pardepth) m' /\
    (forall p, p < cb_size cb -> get m' (va y (ip p)) = Val (g (ip p) + bwd_of (cbmat m) cb Y p)%F) /\
    keeps (fun a => inv yt a \/ cells (fun p => va y (ip p)) (cb_size cb) a) m m'.
Proof.
  intros idx cb yt y ip Y g pd m H1 H2 H3 H4 H5 H6 H7 H8 H9 H10 H11.
  pose proof (fun a => cells_in y ip (cb_size cb) a (idx_lt _ _ _ _ _ H4)) as Hc.
  destruct (wpt_det _ _ _ _ _ (wpt_backward L idx cb yt y ip Y (fun p => g (ip p)) pd m H1 H2 H3 H7 H8 (src_at _ _ _ _ _ _ _ H4 H6) H5
    (fun a Ha Hb => H9 a Ha (Hc a Hb)) H10 (fun a Ha Hb => H11 a Ha (Hc a Hb)))) as (m' & D & A & _ & B).
  exists m'. auto.
Qed.

(** ** C31: transformations for the root only *)
(** [xt] is workspace whose first entries receive V^* x. *)
Theorem C31_compress_avector : forall cb xp xt f m,
  cbok cb -> cbinit m cb -> vdim xp = cb_size cb -> vval m xp f ->
  vdim xt = cb_kbranch cb -> valloc m xt -> disj (inv xp) (inv xt) -> disj (incb cb) (inv xt) ->
  ends (compress_clusterbasis_avector cb xp xt) m (fun _ m' =>
    (forall q, q < cb_k cb -> get m' (va xt q) = Val (sum (cb_size cb) (fun p => fconj (cbmat m cb p q) * f p)%F)) /\ keeps (inv xt) m m').
Proof.
  intros cb xp xt f m H1 H2 H3 H4 H5 H6 H7 H8. apply wp_ends. eapply (wp_compress L); eauto.
  intros m' Hv _ Hk. split; [|exact Hk]. intros q Hq. specialize (Hv q Hq). rewrite va_subv0 in Hv. exact Hv.
Qed.
(** The first entries of [yt] are the coefficients, which are kept; the other ones are workspace. *)
Theorem C31_expand_avector : forall cb yt yp C g m,
  cbok cb -> cbinit m cb -> vdim yp = cb_size cb -> vval m yp g ->
  vdim yt = cb_kbranch cb -> valloc m yt -> (forall q, q < cb_k cb -> get m (va yt q) = Val (C q)) ->
  disj (inv yt) (inv yp) -> disj (incb cb) (inv yt) -> disj (incb cb) (inv yp) ->
  ends (expand_clusterbasis_avector cb yt yp) m (fun _ m' =>
    vval m' yp (fun p => g p + sum (cb_k cb) (fun q => cbmat m cb p q * C q))%F /\
    (forall q, q < cb_k cb -> get m' (va yt q) = Val (C q)) /\ keeps (fun a => inv yt a \/ inv yp a) m m').
Proof.
  intros cb yt yp C g m H1 H2 H3 H4 H5 H6 H7 H8 H9 H10. apply wp_ends. eapply (wp_expand L) with (C := C); eauto.
  - intros q Hq. rewrite va_subv0. apply H7, Hq.
  - intros m' Hv Hc _ Hk. split; [exact Hv|]. split; [|exact Hk]. intros q Hq. specialize (Hc q Hq). rewrite va_subv0 in Hc. exact Hc.
Qed.
(** yp <- yp + alpha V yc and xc <- xc + alpha V^* xp *)
Theorem C31_addeval : forall alpha cb yc yp C g m,
  cbok cb -> cbinit m cb -> vdim yc = cb_k cb -> vval m yc C -> vdim yp = cb_size cb -> vval m yp g ->
  vblk yc < next m -> vblk yp < next m -> (forall a, incb cb a -> fst a < next m) -> disj (incb cb) (inv yp) ->
  ends (addeval_clusterbasis_avector alpha cb yc yp) m (fun _ m' =>
    vval m' yp (fun p => g p + alpha * sum (cb_k cb) (fun q => cbmat m cb p q * C q))%F /\ keeps (inv yp) m m').
Proof. intros alpha cb yc yp C g m H1 H2 H3 H4 H5 H6 H7 H8 H9 H10. apply wp_ends. eapply (wp_addeval_cb L); eauto. Qed.
Theorem C31_addevaltrans : forall alpha cb xp xc f C m,
  cbok cb -> cbinit m cb -> vdim xp = cb_size cb -> vval m xp f -> vdim xc = cb_k cb -> vval m xc C ->
  vblk xp < next m -> vblk xc < next m -> (forall a, incb cb a -> fst a < next m) ->
  ends (addevaltrans_clusterbasis_avector alpha cb xp xc) m (fun _ m' =>
    vval m' xc (fun q => C q + alpha * sum (cb_size cb) (fun p => fconj (cbmat m cb p q) * f p))%F /\ keeps (inv xc) m m').
Proof. intros alpha cb xp xc f C m H1 H2 H3 H4 H5 H6 H7 H8 H9. apply wp_ends. eapply (wp_addevaltrans_cb L); eauto. Qed.
End C30.

(** ** Example: three levels, ranks 1, 1, 2 (a cluster of two indices), 1 and 0, a permutation of the
    indices, complex entries.  Every cluster has a matrix of its own, which the nested basis only uses
    for the leaves. *)
Definition xcl (k o : nat) : cluster QcO := Cl k o [] 0 (anew 0) (anew 0) (Some 1) 0.
Definition xcb : cluster QcO := Cl 2 1 [xcl 1 1; xcl 1 2] 0 (anew 0) (anew 0) (Some 3) 0.
Definition xcr : cluster QcO := Cl 3 0 [xcl 1 0; xcb] 0 (anew 0) (anew 0) (Some 5) 0.
Definition xV0 : mat := Mat 0 0 1 1 1 true.
Definition xV10 : mat := Mat 1 0 1 1 1 true.
Definition xV11 : mat := Mat 2 0 1 1 0 true.
Definition xE0 : mat := Mat 3 0 1 1 1 true.
Definition xE1 : mat := Mat 4 0 2 2 1 true.
Definition xE10 : mat := Mat 5 0 1 1 2 true.
Definition xE11 : mat := Mat 6 0 0 0 2 true.
Definition xV1 : mat := Mat 7 0 2 2 2 true.
Definition xVr : mat := Mat 8 0 3 3 1 true.
Definition xEr : mat := Mat 9 0 0 0 0 true.
Definition xc0 : cbasis QcO := CB (CP [0] (xcl 1 0)) 1 2 2 xV0 xE0 [] None.
Definition xc10 : cbasis QcO := CB (CP [0; 1] (xcl 1 1)) 1 2 2 xV10 xE10 [] None.
Definition xc11 : cbasis QcO := CB (CP [1; 1] (xcl 1 2)) 0 1 1 xV11 xE11 [] None.
Definition xc1 : cbasis QcO := CB (CP [1] xcb) 2 5 4 xV1 xE1 [xc10; xc11] None.
Definition xc : cbasis QcO := CB (CP [] xcr) 1 8 5 xVr xEr [xc0; xc1] None.
Definition xcm : list (list GQf) :=
  [ [gq 1 1]; [gq 2 0]; [gq 9 9]; [gq 0 1]; [gq 3 0; gq 1 2]; [gq 1 0; gq 5 1]; []; [gq 1 0; gq 2 0; gq 3 0; gq 0 4]; [gq 1 0; gq 1 1; gq 2 2]; [];
    [gq 1 0; gq 2 3; gq 0 1]; [gq 1 0; gq 2 0; gq 3 0; gq 4 0; gq 5 0; gq 6 0; gq 7 0; gq 8 0]; [gq 1 1; gq 0 0; gq 2 0]; [gq 4 0; gq 0 2; gq 0 0; gq 0 0; gq 0 0]; [gq 6 1] ].
Definition xcidx : arr nat := aof [2; 0; 1].
Definition xcip (i : nat) : nat := nth i [2; 0; 1] 0.

Lemma xc_ok : cbok xc.
Proof.
  apply cbok_node; try reflexivity; [discriminate| |].
  - intros s [<-|[<-|[]]]; (split; [|split; reflexivity]).
    + apply (cbok_leaf (CP [0] (xcl 1 0)) 1); reflexivity.
    + apply cbok_node; try reflexivity; [discriminate| |].
      * intros s [<-|[<-|[]]]; (split; [|split; reflexivity]).
        -- apply (cbok_leaf (CP [0; 1] (xcl 1 1)) 1); reflexivity.
        -- apply (cbok_leaf (CP [1; 1] (xcl 1 2)) 0); reflexivity.
      * intros [|[|i]] s H; cbn in H; try (injection H as <-; reflexivity). destruct i; discriminate.
  - intros [|[|i]] s H; cbn in H; try (injection H as <-; reflexivity). destruct i; discriminate.
Qed.
Lemma xc_vsok : vsok xc.
Proof. intros o r c H. cbn in H. decompose [or] H; try contradiction; match goal with H : (_, _, _) = _ |- _ => injection H as <- <- <- end; split; reflexivity. Qed.
Lemma xc_placed : cbplaced xc.
Proof. intros o r c H. cbn in H. decompose [or] H; try contradiction; match goal with H : (_, _, _) = _ |- _ => injection H as <- <- <- end; reflexivity. Qed.
Lemma incb_leaf (t : cptr QcO) k kt kb V E Z a : incb (CB t k kt kb V E [] Z) a -> inm V a.
Proof. intros H. inversion H; subst; cbn in *; [assumption|contradiction..]. Qed.
Lemma incb_inner (t : cptr QcO) k kt kb V E l Z a : l <> [] -> incb (CB t k kt kb V E l Z) a -> exists s, In s l /\ (inm (cb_E s) a \/ incb s a).
Proof. intros Hl H. inversion H; subst; cbn in *; [congruence|eauto..]. Qed.
Lemma xc_in a : incb xc a -> exists A, In A [xE0; xV0; xE1; xE10; xV10; xE11; xV11] /\ inm A a.
Proof.
  intros H. apply incb_inner in H; [|discriminate]. destruct H as (s & [<-|[<-|[]]] & [H|H]).
  - exists xE0. cbn; auto 10.
  - apply incb_leaf in H. exists xV0. cbn; auto 10.
  - exists xE1. cbn; auto 10.
  - apply incb_inner in H; [|discriminate]. destruct H as (s & [<-|[<-|[]]] & [H|H]).
    + exists xE10. cbn; auto 10.
    + apply incb_leaf in H. exists xV10. cbn; auto 10.
    + exists xE11. cbn; auto 10.
    + apply incb_leaf in H. exists xV11. cbn; auto 10.
Qed.
Lemma xc_ins a : invs xc a -> exists A, In A [xVr; xV0; xV1; xV10; xV11] /\ inm A a.
Proof.
  intros H. inversion H as [? ? Ha|? s ? Hs Ha]; subst; [exists xVr; cbn; auto 10|]. destruct Hs as [<-|[<-|[]]].
  - inversion Ha as [? ? Hb|? s ? Hs Hb]; subst; [exists xV0; cbn; auto 10|destruct Hs].
  - inversion Ha as [? ? Hb|? s ? Hs Hb]; subst; [exists xV1; cbn; auto 10|]. destruct Hs as [<-|[<-|[]]].
    + inversion Hb as [? ? Hc|? s ? Hs Hc]; subst; [exists xV10; cbn; auto 10|destruct Hs].
    + inversion Hb as [? ? Hc|? s ? Hs Hc]; subst; [exists xV11; cbn; auto 10|destruct Hs].
Qed.
Lemma mat_init A a (f : nat -> nat -> GQf) : mval (mem_of xcm) A f -> inm A a -> exists v, get (mem_of xcm) a = Val v.
Proof. intros H (i & j & Hi & Hj & ->). eexists. apply H; assumption. Qed.

Example C30_hyps : let m := mem_of xcm in let x := Vec 10 0 3 true in let xt := Vec 11 0 8 true in let y := Vec 12 0 3 true in let xb := Vec 13 0 5 true in
  cbok xc /\ vsok xc /\ cbplaced xc /\ cbinit m xc /\ vsinit m xc /\ idx_at xcidx (cb_off xc) (cb_size xc) xcip 3 /\ injn xcip (cb_size xc) /\
  vval m x (vof xcm x) /\ vval m xt (vof xcm xt) /\ vval m y (vof xcm y) /\ vval m xb (vof xcm xb) /\
  vdim xt = cb_ktree xc /\ vdim xb = cb_kbranch xc /\
  disj (inv x) (inv xt) /\ disj (inv xt) (inv y) /\ disj (incb xc) (inv xt) /\ disj (incb xc) (inv y) /\ disj (invs xc) (inv xt) /\ disj (invs xc) (inv y) /\
  (forall a, incb xc a -> fst a < 7) /\ (forall a, invs xc a -> fst a < 9) /\ next m = 15.
Proof.
  assert (B1 : forall a, incb xc a -> fst a < 7).
  { intros a H. apply xc_in in H as (A & H & Ha). apply inm_blk in Ha. rewrite Ha. cbn in H. decompose [or] H; try contradiction; subst A; cbn; lia. }
  assert (B2 : forall a, invs xc a -> fst a < 9).
  { intros a H. apply xc_ins in H as (A & H & Ha). apply inm_blk in Ha. rewrite Ha. cbn in H. decompose [or] H; try contradiction; subst A; cbn; lia. }
  cbv zeta. split; [exact xc_ok|]. split; [exact xc_vsok|]. split; [exact xc_placed|].
  split. { intros a H. apply xc_in in H as (A & H & Ha). cbn in H. decompose [or] H; try contradiction; subst A; eapply mat_init; try exact Ha; apply mval_of; reflexivity. }
  split. { intros a H. apply xc_ins in H as (A & H & Ha). cbn in H. decompose [or] H; try contradiction; subst A; eapply mat_init; try exact Ha; apply mval_of; reflexivity. }
  split. { intros [|[|[|p]]] Hp; cbn in Hp; try lia; split; try reflexivity; cbn; lia. }
  split. { intros [|[|[|i]]] [|[|[|j]]] Hi Hj; cbn; intros; try reflexivity; try discriminate; cbn in Hi, Hj; lia. }
  do 4 (split; [apply vval_of; reflexivity|]). split; [reflexivity|]. split; [reflexivity|].
  do 2 (split; [intros a Ha Hb; apply inv_blk in Ha, Hb; cbn in *; congruence|]).
  do 2 (split; [intros a Ha Hb; apply B1 in Ha; apply inv_blk in Hb; cbn in *; lia|]).
  do 2 (split; [intros a Ha Hb; apply B2 in Ha; apply inv_blk in Hb; cbn in *; lia|]).
  split; [exact B1|]. split; [exact B2|]. reflexivity.
Qed.
(** The value of one coefficient of the root. *)
Example C30_value : cbmat (mem_of xcm) xc 1 0 = gq (3 * 2 + 2 * (5 * 1 - 1 * 2))%Z (2 * (5 * 2 + 1 * 1))%Z.
Proof. vm_compute. reflexivity. Qed.

Print Assumptions C30_forward.
Print Assumptions C30_forward_nopermutation.
Print Assumptions C30_forward_notransfer.
Print Assumptions C30_backward.
Print Assumptions C30_backward_nopermutation.
Print Assumptions C30_backward_notransfer.
Print Assumptions C30_adjoint.
Print Assumptions C09_forward_parallel.
Print Assumptions C09_backward_parallel.
Print Assumptions C31_compress_avector.
Print Assumptions C31_expand_avector.
Print Assumptions C31_addeval.
Print Assumptions C31_addevaltrans.
