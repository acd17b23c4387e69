(** * Proofs about the vector kernels (model: Avector.v) *)
From Coq Require Import Arith Lia List Bool NArith.
From Verif Require Import Fld Prog View Loop Avector.
Import ListNotations.

Section AvectorP.
Context {K : fops}.
Implicit Types (m : mem K) (R W : addr -> Prop) (x y v w : vec).

Lemma wp_init_avector R W dim m (Q : vec -> mem K -> Prop) :
  (forall v, v = Vec (next m) 0 dim true -> valloc (alloc m dim) v -> Q v (alloc m dim)) ->
  wp R W (init_avector dim) m Q.
Proof.
  intros HQ. cbn. apply HQ; [reflexivity|].
  intros i Hi. cbn in *. unfold va; cbn. rewrite get_alloc_new.
  destruct (Nat.ltb_spec i dim); [discriminate|lia].
Qed.

Lemma wp_clear_avector R W v m (Q : unit -> mem K -> Prop) :
  valloc m v -> wrok W (inv v) ->
  (forall m', vval m' v (fun _ => f0) -> keeps (inv v) m m' -> Q tt m') ->
  wp R W (clear_avector v) m Q.
Proof.
  intros Hv Hw HQ. unfold clear_avector.
  eapply wp_vfill with (g := fun _ => f0); [exact Hv|reflexivity| |exact HQ].
  intros i m1 Hi Ha Hk Hu. wstep. wrote_tac.
Qed.

Lemma wp_fill_avector R W v c m (Q : unit -> mem K -> Prop) :
  valloc m v -> wrok W (inv v) ->
  (forall m', vval m' v (fun _ => c) -> keeps (inv v) m m' -> Q tt m') ->
  wp R W (fill_avector v c) m Q.
Proof.
  intros Hv Hw HQ. unfold fill_avector.
  eapply wp_vfill with (g := fun _ => c); [exact Hv|reflexivity| |exact HQ].
  intros i m1 Hi Ha Hk Hu. wstep. wrote_tac.
Qed.

Lemma wp_random_avector R W rnd v m (Q : unit -> mem K -> Prop) :
  valloc m v -> wrok W (inv v) ->
  (forall m', vval m' v rnd -> keeps (inv v) m m' -> Q tt m') ->
  wp R W (random_avector rnd v) m Q.
Proof.
  intros Hv Hw HQ. unfold random_avector.
  eapply wp_vfill with (g := rnd); [exact Hv|reflexivity| |exact HQ].
  intros i m1 Hi Ha Hk Hu. wstep. wrote_tac.
Qed.

Lemma wp_copy_avector R W v w f m (Q : unit -> mem K -> Prop) :
  vval m v f -> valloc m w -> vdim v = vdim w -> disj (inv v) (inv w) ->
  rdok R W (inv v) -> wrok W (inv w) ->
  (forall m', vval m' w f -> keeps (inv w) m m' -> Q tt m') ->
  wp R W (copy_avector v w) m Q.
Proof.
  intros Hv Hw Hd Hdis Hrv Hww HQ. unfold copy_avector. wstep.
  eapply wp_vfill with (g := f); [exact Hw|exact Hd| |exact HQ].
  intros i m1 Hi Ha Hk Hu.
  assert (vval m1 v f) by (eapply vval_keeps; eauto).
  wstep. wstep. wrote_tac.
Qed.

Lemma wp_copy_sub_avector R W v w f g m (Q : unit -> mem K -> Prop) :
  vval m v f -> vval m w g -> disj (inv v) (inv w) ->
  rdok R W (inv v) -> wrok W (inv w) ->
  (forall m', vval m' w (fun i => if i <? vdim v then f i else g i) ->
     keeps (inv w) m m' -> Q tt m') ->
  wp R W (copy_sub_avector v w) m Q.
Proof.
  intros Hv Hw Hdis Hrv Hww HQ. unfold copy_sub_avector.
  eapply wp_vloop with (g := f); [exact Hw|lia| |].
  - intros i m1 Hi Ha Hk. assert (vval m1 v f) by (eapply vval_keeps; eauto).
    wstep. wstep. wrote_tac.
  - intros m' H Hk. apply HQ; [|exact Hk]. eapply vval_ext; [exact H|].
    intros i Hi; cbv beta. bsplit; reflexivity.
Qed.

Lemma wp_scale_avector R W alpha v f m (Q : unit -> mem K -> Prop) :
  vval m v f -> wrok W (inv v) ->
  (forall m', vval m' v (fun i => f i * alpha)%F -> keeps (inv v) m m' -> Q tt m') ->
  wp R W (scale_avector alpha v) m Q.
Proof.
  intros Hv Hww HQ. unfold scale_avector.
  eapply wp_vloop with (g := fun i => (f i * alpha)%F); [exact Hv|lia| |].
  - intros i m1 Hi Ha Hk. wstep. wstep. wrote_tac.
  - intros m' H Hk. apply HQ; [|exact Hk]. eapply vval_ext; [exact H|].
    intros i Hi; cbv beta. bsplit; reflexivity.
Qed.

Lemma wp_add_avector R W alpha x y f g m (Q : unit -> mem K -> Prop) :
  vval m x f -> vval m y g -> vdim x <= vdim y -> disj (inv x) (inv y) ->
  rdok R W (inv x) -> wrok W (inv y) ->
  (forall m', vval m' y (fun i => if i <? vdim x then (g i + alpha * f i)%F else g i) ->
     keeps (inv y) m m' -> Q tt m') ->
  wp R W (add_avector alpha x y) m Q.
Proof.
  intros Hx Hy Hd Hdis Hrx Hwy HQ. unfold add_avector. wstep.
  eapply wp_vloop with (g := fun i => (g i + alpha * f i)%F); [exact Hy|lia| |].
  - intros i m1 Hi Ha Hk. assert (vval m1 x f) by (eapply vval_keeps; eauto).
    wstep. wstep. wstep. wrote_tac.
  - intros m' H Hk. apply HQ; [|exact Hk]. eapply vval_ext; [exact H|].
    intros i Hi; cbv beta. bsplit; reflexivity.
Qed.

Lemma wp_sumsqr_avector R W v f m (Q : K -> mem K -> Prop) :
  vval m v f -> rdok R W (inv v) ->
  Q (sum (vdim v) (fun i => fconj (f i) * f i)%F) m ->
  wp R W (sumsqr_avector v) m Q.
Proof.
  intros Hv Hr HQ. unfold sumsqr_avector.
  eapply wp_fold with (g := fun n => sum n (fun i => fconj (f i) * f i)%F); [reflexivity| |exact HQ].
  intros i Hi. wstep. wstep. auto.
Qed.

Lemma wp_norm2_avector R W sq v f m (Q : K -> mem K -> Prop) :
  vval m v f -> rdok R W (inv v) ->
  Q (sq (sum (vdim v) (fun i => fconj (f i) * f i)%F)) m ->
  wp R W (norm2_avector sq v) m Q.
Proof.
  intros Hv Hr HQ. unfold norm2_avector. apply wp_bind. eapply wp_sumsqr_avector; eauto.
Qed.

Lemma wp_dotprod_avector R W x y f g m (Q : K -> mem K -> Prop) :
  vval m x f -> vval m y g -> vdim x = vdim y -> rdok R W (inv x) -> rdok R W (inv y) ->
  Q (sum (vdim x) (fun i => fconj (f i) * g i)%F) m ->
  wp R W (dotprod_avector x y) m Q.
Proof.
  intros Hx Hy Hd Hrx Hry HQ. unfold dotprod_avector. wstep.
  eapply wp_fold with (g := fun n => sum n (fun i => fconj (f i) * g i)%F); [reflexivity| |exact HQ].
  intros i Hi. wstep. wstep. wstep. auto.
Qed.

(** Sub-vectors. *)
Definition subv (x : vec) (off dim : nat) : vec := Vec (vblk x) (voff x + off) dim false.
Definition colv (A : mat) (j : nat) : vec := Vec (mblk A) (moff A + j * mld A) (mrows A) false.

Lemma va_subv x off dim i : va (subv x off dim) i = va x (off + i).
Proof. unfold va, subv; cbn. f_equal. lia. Qed.
Lemma va_colv A j i : va (colv A j) i = ma A i j.
Proof. unfold va, ma, colv; cbn. f_equal. lia. Qed.

Lemma inv_subv x off dim : off + dim <= vdim x -> forall a, inv (subv x off dim) a -> inv x a.
Proof.
  intros H a [i [Hi ->]]. rewrite va_subv. cbn in Hi. apply inv_va. lia.
Qed.
Lemma inv_colv A j : j < mcols A -> forall a, inv (colv A j) a -> inm A a.
Proof.
  intros H a [i [Hi ->]]. rewrite va_colv. cbn in Hi. apply inm_ma; assumption.
Qed.

Lemma vval_subv m x f off dim : vval m x f -> off + dim <= vdim x ->
  vval m (subv x off dim) (fun i => f (off + i)).
Proof. intros H Hd i Hi. rewrite va_subv. cbn in Hi. apply H. lia. Qed.
Lemma vval_colv m A f j : mval m A f -> j < mcols A ->
  vval m (colv A j) (fun i => f i j).
Proof. intros H Hd i Hi. rewrite va_colv. cbn in Hi. apply H; assumption. Qed.

(** Writing back a changed sub-vector / column. *)
Lemma vval_subv_back m m' x f g off dim :
  vval m x f -> off + dim <= vdim x -> vval m' (subv x off dim) g ->
  keeps (inv (subv x off dim)) m m' ->
  vval m' x (fun i => if (off <=? i) && (i <? off + dim) then g (i - off) else f i).
Proof.
  intros H Hd Hg [Hn Hk] i Hi. bsplit.
  - specialize (Hg (i - off)). rewrite va_subv in Hg. replace (off + (i - off)) with i in Hg by lia.
    apply Hg. cbn; lia.
  - rewrite Hk; [apply H; lia|]. intros [k [Hk' E]]. rewrite va_subv in E. apply va_inj in E.
    cbn in Hk'. lia.
  - rewrite Hk; [apply H; lia|]. intros [k [Hk' E]]. rewrite va_subv in E. apply va_inj in E.
    cbn in Hk'. lia.
Qed.

Lemma mval_colv_back m m' A f g j :
  mwf A -> mval m A f -> j < mcols A -> vval m' (colv A j) g ->
  keeps (inv (colv A j)) m m' ->
  mval m' A (fun i l => if l =? j then g i else f i l).
Proof.
  intros Hw H Hd Hg [Hn Hk] i l Hi Hl. bsplit.
  - subst. specialize (Hg i). rewrite va_colv in Hg. apply Hg. exact Hi.
  - rewrite Hk; [apply H; assumption|]. intros [k [Hk' E]]. rewrite va_colv in E.
    apply ma_inj in E; auto. lia.
Qed.

Lemma keeps_subv m m' x off dim : off + dim <= vdim x ->
  keeps (inv (subv x off dim)) m m' -> keeps (inv x) m m'.
Proof. intros H. apply keeps_mono. apply inv_subv. exact H. Qed.
Lemma keeps_colv m m' A j : j < mcols A ->
  keeps (inv (colv A j)) m m' -> keeps (inm A) m m'.
Proof. intros H. apply keeps_mono. apply inv_colv. exact H. Qed.

Lemma wp_init_sub_avector R W x dim off m (Q : vec -> mem K -> Prop) :
  off + dim <= vdim x -> Q (subv x off dim) m -> wp R W (init_sub_avector x dim off) m Q.
Proof. intros H HQ. unfold init_sub_avector. wstep. wstep. exact HQ. Qed.

Lemma wp_init_column_avector R W A j m (Q : vec -> mem K -> Prop) :
  j < mcols A -> Q (colv A j) m -> wp R W (init_column_avector A j) m Q.
Proof. intros H HQ. unfold init_column_avector. wstep. wstep. exact HQ. Qed.

(** Fresh vectors: nothing else has the new block number. *)
Lemma inv_fresh_disj m dim (P : addr -> Prop) :
  (forall a, P a -> fst a < next m) -> disj (inv (Vec (next m) 0 dim true)) P.
Proof. intros H a [i [_ ->]] Hp. apply H in Hp. cbn in Hp. lia. Qed.
End AvectorP.
