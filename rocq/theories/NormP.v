(** * Proofs about the norm estimators (model: Norm.v) *)
From Coq Require Import Arith Lia List Bool Ring.
From Verif Require Import Fld Prog View Spec Loop Avector AvectorP Amatrix AmatrixP AmatrixP2 Arr Sparse SparseP Norm.
Import ListNotations.

Section NormP.
Context {K : fops} (L : ring_laws K).
Add Ring Kring : (rl_ring K L).
Implicit Types (m : mem K) (R W F : addr -> Prop) (x y : vec).

(** [mv alpha false x y] computes y + alpha A x and [mv alpha true x y] computes
    y + alpha B x, for a matrix representation that occupies the cells [F] and
    satisfies [I]. *)
Record mvm_ok (mv : K -> bool -> vec -> vec -> prog K unit) (rows cols : nat)
  (A B : nat -> nat -> K) F (I : mem K -> Prop) : Prop := MvmOk {
  mv_keep : forall m m' (W : addr -> Prop), I m -> keeps W m m' -> disj F W -> I m';
  mv_wp : forall R W alpha (t : bool) x y f h m (Q : unit -> mem K -> Prop),
    I m -> rdok R W F -> vval m x f -> vval m y h ->
    vdim x = (if t then rows else cols) -> vdim y = (if t then cols else rows) ->
    vblk x < next m -> vblk y < next m ->
    disj (inv x) (inv y) -> disj F (inv y) -> rdok R W (inv x) -> wrok W (inv y) ->
    (forall m', vval m' y (fun i => h i + alpha * mvec (vdim x) (if t then B else A) f i)%F ->
       keeps (inv y) m m' -> Q tt m') ->
    wp R W (mv alpha t x y) m Q
}.

(** The power iteration in mathematical terms. *)
Fixpoint power_it (sq : K -> K) (pos : K -> bool) (rows cols : nat) (A B : nat -> nat -> K)
  (n : nat) (norm : K) (x : nat -> K) : K :=
  match n with
  | O => norm
  | S n' =>
    if pos norm then
      let y := mvec cols A (fun j => x j * (f1 / norm))%F in
      let x' := mvec rows B y in
      power_it sq pos rows cols A B n' (sq (dot cols x' x')) x'
    else norm
  end.

Lemma mvec_ext n (A : nat -> nat -> K) f g i : (forall j, j < n -> f j = g j) -> mvec n A f i = mvec n A g i.
Proof. intros H. unfold mvec. apply sum_ext. intros j Hj. rewrite H by exact Hj. reflexivity. Qed.

Lemma dot_ext n (f g f' g' : nat -> K) : (forall j, j < n -> f j = f' j) ->
  (forall j, j < n -> g j = g' j) -> dot n f g = dot n f' g'.
Proof. intros H H'. unfold dot. apply sum_ext. intros j Hj. rewrite H, H' by exact Hj. reflexivity. Qed.

Lemma wp_norm2_loop sq pos mv rows cols A B F I R W x y n : mvm_ok mv rows cols A B F I ->
  vdim x = cols -> vdim y = rows -> disj (inv x) (inv y) -> disj F (inv x) -> disj F (inv y) ->
  rdok R W F -> wrok W (inv x) -> wrok W (inv y) ->
  forall norm f m (Q : K -> mem K -> Prop),
  I m -> vval m x f -> valloc m y -> vblk x < next m -> vblk y < next m ->
  (forall m', keeps (fun a => inv x a \/ inv y a) m m' ->
     Q (power_it sq pos rows cols A B n norm f) m') ->
  wp R W (norm2_loop sq pos mv x y n norm) m Q.
Proof.
  intros Hmv Hdx Hdy Hxy HFx HFy HrF Hwx Hwy.
  induction n as [|n IH]; intros norm f m Q HI Hx Hy Hbx Hby HQ; cbn [norm2_loop power_it].
  - apply HQ. apply keeps_refl.
  - cbn [power_it] in HQ. destruct (pos norm); [|apply HQ; apply keeps_refl].
    apply wp_bind. eapply wp_scale_avector; [exact Hx|exact Hwx|]. intros m1 Hx1 Hk1.
    assert (Hy1 : valloc m1 y) by (eapply valloc_keeps; [exact Hy|exact Hk1|apply disj_sym; exact Hxy]).
    assert (HI1 : I m1) by (eapply (mv_keep _ _ _ _ _ _ _ Hmv); eauto).
    pose proof (proj1 Hk1) as Hn1.
    apply wp_bind. eapply wp_clear_avector; [exact Hy1|exact Hwy|]. intros m2 Hy2 Hk2.
    assert (Hx2 : vval m2 x (fun j => (f j * (f1 / norm))%F)) by (eapply vval_keeps; eauto).
    assert (HI2 : I m2) by (eapply (mv_keep _ _ _ _ _ _ _ Hmv); eauto).
    pose proof (proj1 Hk2) as Hn2.
    apply wp_bind. eapply (mv_wp _ _ _ _ _ _ _ Hmv) with (x := x) (y := y);
      [exact HI2|exact HrF|exact Hx2|exact Hy2|exact Hdx|exact Hdy|lia|lia|exact Hxy|exact HFy
      |apply rdok_w; exact Hwx|exact Hwy|].
    intros m3 Hy3 Hk3. cbv beta iota in Hy3.
    assert (Hx3 : vval m3 x (fun j => (f j * (f1 / norm))%F)) by (eapply vval_keeps; eauto).
    assert (HI3 : I m3) by (eapply (mv_keep _ _ _ _ _ _ _ Hmv); eauto).
    pose proof (proj1 Hk3) as Hn3.
    apply wp_bind. eapply wp_clear_avector; [eapply vval_alloc; exact Hx3|exact Hwx|]. intros m4 Hx4 Hk4.
    assert (Hy4 : vval m4 y (mvec cols A (fun j => (f j * (f1 / norm))%F))).
    { eapply vval_ext; [eapply vval_keeps; [exact Hy3|exact Hk4|apply disj_sym; exact Hxy]|].
      intros i Hi; cbv beta. rewrite Hdx. ring. }
    assert (HI4 : I m4) by (eapply (mv_keep _ _ _ _ _ _ _ Hmv); eauto).
    pose proof (proj1 Hk4) as Hn4.
    apply wp_bind. eapply (mv_wp _ _ _ _ _ _ _ Hmv) with (x := y) (y := x);
      [exact HI4|exact HrF|exact Hy4|exact Hx4|exact Hdy|exact Hdx|lia|lia|apply disj_sym; exact Hxy|exact HFx
      |apply rdok_w; exact Hwy|exact Hwx|].
    intros m5 Hx5 Hk5. cbv beta iota in Hx5.
    assert (HI5 : I m5) by (eapply (mv_keep _ _ _ _ _ _ _ Hmv); eauto).
    pose proof (proj1 Hk5) as Hn5.
    set (x' := mvec rows B (mvec cols A (fun j => (f j * (f1 / norm))%F))) in *.
    assert (Hx5' : vval m5 x x').
    { eapply vval_ext; [exact Hx5|]. intros i Hi; cbv beta. rewrite Hdy. unfold x'. ring. }
    assert (Hkk : keeps (fun a => inv x a \/ inv y a) m m5).
    { eapply keeps_trans; [eapply keeps_mono; [|exact Hk1]; cbn; tauto|].
      eapply keeps_trans; [eapply keeps_mono; [|exact Hk2]; cbn; tauto|].
      eapply keeps_trans; [eapply keeps_mono; [|exact Hk3]; cbn; tauto|].
      eapply keeps_trans; [eapply keeps_mono; [|exact Hk4]; cbn; tauto|].
      eapply keeps_mono; [|exact Hk5]; cbn; tauto. }
    apply wp_bind. eapply wp_norm2_avector; [exact Hx5'|apply rdok_w; exact Hwx|].
    rewrite Hdx.
    eapply IH; [exact HI5|exact Hx5'| |lia|lia|].
    + eapply vval_alloc. eapply vval_keeps; [exact Hy4|exact Hk5|apply disj_sym; exact Hxy].
    + intros m' Hk'. apply HQ. eapply keeps_trans; [exact Hkk|exact Hk'].
Qed.

Lemma wp_norm2_matrix sq pos rnd mv rows cols A B F I R W m (Q : K -> mem K -> Prop) :
  mvm_ok mv rows cols A B F I -> I m -> (forall a, F a -> fst a < next m) -> rdok R W F ->
  (forall m', keeps (fun _ => False) m m' ->
     Q (sq (power_it sq pos rows cols A B NORM_STEPS (sq (dot cols rnd rnd)) rnd)) m') ->
  wp R W (norm2_matrix sq pos rnd mv rows cols) m Q.
Proof.
  intros Hmv HI HF HrF HQ. unfold norm2_matrix, init_avector. cbn [bind palloc wp].
  set (m1 := alloc m cols). set (m2 := alloc m1 rows).
  set (x := Vec (next m) 0 cols true). set (y := Vec (next m1) 0 rows true).
  set (W' := fun a => (W a \/ fst a = next m) \/ fst a = next m1).
  assert (Hn1 : next m1 = S (next m)) by reflexivity.
  assert (Hn2 : next m2 = S (next m1)) by reflexivity.
  assert (Hwx : wrok W' (inv x)) by (intros a Ha; left; right; exact (inv_blk _ _ Ha)).
  assert (Hwy : wrok W' (inv y)) by (intros a Ha; right; exact (inv_blk _ _ Ha)).
  assert (Hxy : disj (inv x) (inv y)) by (apply disj_vv_blk; cbn; lia).
  assert (HFx : disj F (inv x)) by (intros a Ha Hb; apply HF in Ha; apply inv_blk in Hb; cbn in Hb; lia).
  assert (HFy : disj F (inv y)).
  { intros a Ha Hb; apply HF in Ha; apply inv_blk in Hb. change (vblk y) with (next m1) in Hb. lia. }
  assert (HrF' : rdok R W' F) by (intros a Ha; destruct (HrF a Ha); unfold W'; auto).
  assert (Hkal : keeps (fun a => fst a = next m \/ fst a = next m1) m m2).
  { split; [lia|]. intros a Ha. unfold m2, m1. rewrite !get_alloc_old by tauto. reflexivity. }
  assert (Hay : valloc m2 y) by apply valloc_fresh.
  assert (Hax : valloc m2 x).
  { intros i Hi. unfold m2. rewrite get_alloc_old by (cbn; lia). apply valloc_fresh. exact Hi. }
  assert (HI2 : I m2).
  { eapply (mv_keep _ _ _ _ _ _ _ Hmv); [exact HI|exact Hkal|].
    intros a Ha Hb. apply HF in Ha. lia. }
  apply wp_bind. eapply wp_random_avector; [exact Hax|exact Hwx|]. intros m3 Hx3 Hk3.
  pose proof (proj1 Hk3) as Hn3.
  apply wp_bind. eapply wp_norm2_avector; [exact Hx3|apply rdok_w; exact Hwx|].
  apply wp_bind. eapply (wp_norm2_loop sq pos mv rows cols A B F I R W' x y);
    [exact Hmv|reflexivity|reflexivity|exact Hxy|exact HFx|exact HFy|exact HrF'|exact Hwx|exact Hwy
    |eapply (mv_keep _ _ _ _ _ _ _ Hmv); eauto|exact Hx3| | | |].
  - eapply valloc_keeps; [exact Hay|exact Hk3|apply disj_sym; exact Hxy].
  - change (vblk x) with (next m). lia.
  - change (vblk y) with (next m1). lia.
  - intros m4 Hk4. pose proof (proj1 Hk4) as Hn4.
    unfold uninit_avector. cbn [vown x y bind pfree wp vblk].
    split; [lia|]. split; [intros o; right; reflexivity|].
    split; [cbn; lia|]. split; [intros o; left; right; reflexivity|].
    apply HQ. apply keeps_dealloc; [lia|]. apply keeps_dealloc; [lia|].
    eapply keeps_trans; [eapply keeps_mono; [|exact Hkal]; cbn; tauto|].
    eapply keeps_trans; [eapply keeps_mono; [|exact Hk3]|eapply keeps_mono; [|exact Hk4]].
    + intros a Ha. apply inv_blk in Ha. left; right; exact Ha.
    + intros a [Ha|Ha]; apply inv_blk in Ha; [left; right; exact Ha|right; exact Ha].
Qed.

(** Sums of two operators. *)
Lemma mvm_ok_diff mvA mvB rows cols A A' B B' F G I J :
  mvm_ok mvA rows cols A A' F I -> mvm_ok mvB rows cols B B' G J ->
  mvm_ok (fun alpha t x y => mvA alpha t x y ;;; mvB (- alpha)%F t x y) rows cols
    (fun i j => A i j - B i j)%F (fun i j => A' i j - B' i j)%F
    (fun a => F a \/ G a) (fun m => I m /\ J m).
Proof.
  intros HA HB. constructor.
  - intros m m' W [HI HJ] Hk Hd. split.
    + eapply (mv_keep _ _ _ _ _ _ _ HA); [exact HI|exact Hk|]. intros a Ha. apply Hd. auto.
    + eapply (mv_keep _ _ _ _ _ _ _ HB); [exact HJ|exact Hk|]. intros a Ha. apply Hd. auto.
  - intros R W alpha t x y f h m Q [HI HJ] Hr Hx Hy Hdx Hdy Hbx Hby Hxy HF Hrx Hwy HQ.
    apply wp_bind.
    eapply (mv_wp _ _ _ _ _ _ _ HA); eauto; [intros a Ha; apply Hr; auto|intros a Ha; apply HF; auto|].
    intros m1 Hy1 Hk1. pose proof (proj1 Hk1) as Hn1.
    eapply (mv_wp _ _ _ _ _ _ _ HB).
    + eapply (mv_keep _ _ _ _ _ _ _ HB); [exact HJ|exact Hk1|]. intros a Ha; apply HF; auto.
    + intros a Ha; apply Hr; auto.
    + eapply vval_keeps; eauto.
    + exact Hy1.
    + exact Hdx.
    + exact Hdy.
    + lia.
    + lia.
    + exact Hxy.
    + intros a Ha; apply HF; auto.
    + exact Hrx.
    + exact Hwy.
    + intros m' Hv Hk. apply HQ; [|eapply keeps_trans; eauto].
      eapply vval_ext; [exact Hv|]. intros i Hi; cbv beta. unfold mvec.
      destruct t.
      * rewrite (sum_ext _ (fun j => ((A' i j - B' i j) * f j)%F) (fun j => (A' i j * f j - B' i j * f j)%F))
          by (intros; ring). rewrite (sum_sub L). ring.
      * rewrite (sum_ext _ (fun j => ((A i j - B i j) * f j)%F) (fun j => (A i j * f j - B i j * f j)%F))
          by (intros; ring). rewrite (sum_sub L). ring.
Qed.

Lemma mvm_ok_sparse (a : smat K) rs cs vs : swf a rs cs vs ->
  mvm_ok (fun alpha t => mvm_sparsematrix_avector alpha t a) (srows a) (scols a)
    (sden rs cs vs) (fun i j => sden rs cs vs j i) (fun _ => False) (fun _ => True).
Proof.
  intros H. constructor; [auto|].
  intros R W alpha t x y f h m Q _ _ Hx Hy Hdx Hdy _ _ Hxy _ Hrx Hwy HQ.
  unfold mvm_sparsematrix_avector. destruct t.
  - eapply (wp_addevaltrans_sparsematrix_avector L); eauto.
    intros m' Hv Hk. apply HQ; [|exact Hk]. unfold mvec. rewrite Hdx. exact Hv.
  - eapply (wp_addeval_sparsematrix_avector L); eauto.
    intros m' Hv Hk. apply HQ; [|exact Hk]. unfold mvec. rewrite Hdx. exact Hv.
Qed.
End NormP.
