(** * Functions with auxiliary vectors *)
From Coq Require Import Arith Lia List Bool Ring.
From Verif Require Import Fld Ord Prog Arr View Loop Spec Cluster Block Avector AvectorP Amatrix AmatrixP AmatrixP2 Hmatrix HmSpec HmP Clusterbasis CbSpec CbP CbP2 CbP3 CbP4 CbP5.
Import ListNotations.

Section P6.
Context {K : fops} {G : ofops} (L : ring_laws K).
Add Ring KringCb6 : (rl_ring K L).
Implicit Types (m : mem K) (cb c s : cbasis G) (X Y B : nat -> K).
Local Notation MV m := (fun c => mfun m (cb_V c)).

Lemma wp_tmp R W n (q : vec -> prog K unit) m (Q : unit -> mem K -> Prop) :
  (forall xp m1, xp = Vec (next m) 0 n true -> valloc m1 xp -> next m1 = S (next m) -> keeps (fun a => fst a = next m) m m1 ->
     wp R (fun a => W a \/ fst a = next m) (q xp) m1 Q) ->
  wp R W (xp <- init_avector n ;; q xp) m Q.
Proof.
  intros H. unfold init_avector at 1. cbn [bind palloc wp].
  apply (H (Vec (next m) 0 n true) (alloc m n)); [reflexivity|apply valloc_fresh|reflexivity|].
  eapply keeps_mono; [|apply (keeps_alloc m n (fun _ => False)); apply keeps_refl]. cbn. intros ? [[]|?]; assumption.
Qed.
Lemma wp_untmp (R W : addr -> Prop) (xp : vec) b m n (Q : unit -> mem K -> Prop) : xp = Vec b 0 n true -> b < next m -> Q tt (dealloc m b) ->
  wp R (fun a => W a \/ fst a = b) (uninit_avector xp) m Q.
Proof. intros -> N HQ. unfold uninit_avector. cbn [vown bind pfree wp vblk]. split; [exact N|]. split; [intros o; right; reflexivity|exact HQ]. Qed.
Lemma vval_dealloc m (x : vec) f b : vval m x f -> vblk x <> b -> vval (dealloc m b) x f.
Proof. intros H N i Hi. rewrite get_dealloc. cbn [fst va]. destruct (Nat.eqb_spec (vblk x) b); [contradiction|]. apply H, Hi. Qed.
Lemma rdok_tmp (R W P F : addr -> Prop) : rdok R W P -> rdok R (fun a => W a \/ F a) P.
Proof. intros H a Ha. destruct (H a Ha); [left|right; left]; assumption. Qed.
Lemma wrok_tmp (W P F : addr -> Prop) : wrok W P -> wrok (fun a => W a \/ F a) P.
Proof. intros H a Ha. left. apply H, Ha. Qed.
Lemma blk_disj n (P : addr -> Prop) : (forall a, P a -> fst a < n) -> disj P (fun a => fst a = n).
Proof. intros H a Ha Hb. apply H in Ha. lia. Qed.
Lemma inv_below x n a : vblk x < n -> inv x a -> fst a < n.
Proof. intros H Ha. apply inv_blk in Ha. lia. Qed.
Lemma vsinit_keeps m m' cb (W : addr -> Prop) : vsinit m cb -> keeps W m m' -> disj (invs cb) W -> vsinit m' cb.
Proof. intros H [_ Hk] D a Ha. destruct (H a Ha) as [v Hv]. exists v. rewrite Hk; [exact Hv|]. intros Hw. exact (D a Ha Hw). Qed.
Lemma fwd_MV m m1 cb (W : addr -> Prop) X Y : cbok cb -> keeps W m m1 -> disj (invs cb) W -> fwd_of (MV m1) cb X Y -> fwd_of (MV m) cb X Y.
Proof.
  intros Hok Hk Hd H o r c Hc. destruct (H o r c Hc) as [H1 H2]. split; [|exact H2]. intros q Hq. rewrite H1 by exact Hq.
  apply sum_ext. intros p Hp. f_equal. f_equal. eapply mfun_keeps; [exact Hk|]. intros a Ha. apply Hd. eapply invs_node; eauto.
Qed.

Lemma wp_forward_notransfer idx cb R W x xt ip X m (Q : unit -> mem K -> Prop) :
  cbok cb -> vsok cb -> cbplaced cb -> vsinit m cb -> vdim xt = cb_ktree cb -> valloc m xt ->
  perm_src idx m x (cb_off cb) (cb_size cb) ip X ->
  vblk x < next m -> vblk xt < next m -> (forall a, invs cb a -> fst a < next m) ->
  disj (inv x) (inv xt) -> disj (invs cb) (inv xt) -> rdok R W (invs cb) -> rdok R W (inv x) -> wrok W (inv xt) ->
  (forall m' Y, vval m' xt Y -> fwd_of (MV m) cb X Y -> keeps (inv xt) m m' -> Q tt m') ->
  wp R W (forward_notransfer_clusterbasis_avector idx cb x xt) m Q.
Proof.
  intros Hok Hvs Hpl Hini Ex Ha Hs Bx Bt Bv D1 D2 R1 R2 W1 HQ. unfold forward_notransfer_clusterbasis_avector. apply wp_tmp.
  intros xp m1 Exp Hap N1 K1. apply wp_bind.
  assert (Ip : forall a, inv xp a -> fst a = next m) by (intros a Ha'; apply inv_blk in Ha'; rewrite Ha', Exp; reflexivity).
  pose proof (blk_disj (next m) (invs cb) Bv) as Dv. pose proof (blk_disj (next m) (inv x) (fun a => inv_below _ _ a Bx)) as Dx.
  pose proof (blk_disj (next m) (inv xt) (fun a => inv_below _ _ a Bt)) as Dt.
  eapply (wp_forward_not L idx cb) with (X := X); [exact Hok|exact Hvs|exact Hpl| |exact Ex| |rewrite Exp; reflexivity|exact Hap| |exact D1| | |exact D2| | | | | |].
  - eapply vsinit_keeps; [exact Hini|exact K1|exact Dv].
  - eapply valloc_keeps; [exact Ha|exact K1|exact Dt].
  - eapply perm_src_keeps; [exact Hs|exact K1|exact Dx].
  - intros a H1 H2. apply (Dx a H1), Ip, H2.
  - intros a H1 H2. apply (Dt a H2), Ip, H1.
  - intros a H1 H2. apply (Dv a H1), Ip, H2.
  - apply rdok_tmp, R1.
  - apply rdok_tmp, R2.
  - apply wrok_tmp, W1.
  - intros a Ha'. right. apply Ip, Ha'.
  - intros m2 Y HY _ HF Hk2. eapply wp_untmp; [exact Exp|pose proof (proj1 Hk2); lia|]. apply (HQ _ Y).
    + apply vval_dealloc; [exact HY|lia].
    + eapply fwd_MV; [exact Hok|exact K1|exact Dv|exact HF].
    + apply keeps_dealloc; [lia|]. eapply keeps_trans; [eapply keeps_mono; [|exact K1]; cbn; auto|]. eapply keeps_mono; [|exact Hk2].
      intros a [H1|H1]; [left; exact H1|right; apply Ip, H1].
Qed.

Lemma wp_backward_notransfer idx cb R W yt y ip Y B m (Q : unit -> mem K -> Prop) :
  cbok cb -> vsok cb -> cbplaced cb -> vsinit m cb -> vdim yt = cb_ktree cb -> vval m yt Y ->
  perm_trg idx m y (cb_off cb) (cb_size cb) ip B -> injn ip (cb_size cb) ->
  vblk yt < next m -> vblk y < next m -> (forall a, invs cb a -> fst a < next m) ->
  disj (inv yt) (cells (fun p => va y (ip p)) (cb_size cb)) -> disj (invs cb) (cells (fun p => va y (ip p)) (cb_size cb)) ->
  rdok R W (invs cb) -> rdok R W (inv yt) -> wrok W (cells (fun p => va y (ip p)) (cb_size cb)) ->
  (forall m', (forall p, p < cb_size cb -> get m' (va y (ip p)) = Val (B p + bwd_of (MV m) cb Y p)%F) ->
     keeps (cells (fun p => va y (ip p)) (cb_size cb)) m m' -> Q tt m') ->
  wp R W (backward_notransfer_clusterbasis_avector idx cb yt y) m Q.
Proof.
  intros Hok Hvs Hpl Hini Ex HY Ht Hinj Bt By Bv D1 D2 R1 R2 W1 HQ. unfold backward_notransfer_clusterbasis_avector.
  apply wp_tmp.
  intros yp m1 Exp Hap N1 K1.
  assert (Ip : forall a, inv yp a -> fst a = next m) by (intros a Ha'; apply inv_blk in Ha'; rewrite Ha', Exp; reflexivity).
  pose proof (blk_disj (next m) (invs cb) Bv) as Dv. pose proof (blk_disj (next m) (inv yt) (fun a => inv_below _ _ a Bt)) as Dt.
  set (C := cells (fun p => va y (ip p)) (cb_size cb)) in *.
  assert (Dc : disj C (fun a => fst a = next m)). { intros a (p & _ & ->) Hb. cbn in Hb. lia. }
  apply wp_bind, wp_clear_avector; [exact Hap|intros a Ha'; right; apply Ip, Ha'|]. intros m2 Hv2 Hk2.
  assert (K2 : keeps (fun a => fst a = next m) m m2) by (eapply keeps_trans; [exact K1|eapply keeps_mono; [exact Ip|exact Hk2]]).
  apply wp_bind. eapply (wp_backward_not L idx cb) with (Y := Y) (ip := ip) (B := B) (P := fun _ => f0);
    [exact Hok|exact Hvs|exact Hpl| |exact Ex| |rewrite Exp; reflexivity|exact Hv2| |exact Hinj|exact D1| | | |exact D2| | | | |].
  - eapply vsinit_keeps; [exact Hini|exact K2|exact Dv].
  - eapply vval_keeps; [exact HY|exact K2|exact Dt].
  - intros p Hp. destruct (Ht p Hp) as (A1 & A2 & A3). split; [exact A1|]. split; [exact A2|]. rewrite (proj2 K2); [exact A3|]. cbn. lia.
  - intros a H1 H2. apply (Dc a H2), Ip, H1.
  - intros a H1 H2. apply (Dt a H1), Ip, H2.
  - intros a H1 H2. apply (Dv a H1), Ip, H2.
  - apply rdok_tmp, R1.
  - apply rdok_tmp, R2.
  - intros a Ha'. right. apply Ip, Ha'.
  - apply wrok_tmp, W1.
  - fold C. intros m3 Hg _ Hk3. pose proof (proj1 Hk3). pose proof (proj1 K2). eapply wp_untmp; [exact Exp|pose proof (proj1 Hk2); lia|]. apply HQ.
    + intros p Hp. rewrite get_dealloc. cbn [fst va]. destruct (Nat.eqb_spec (vblk y) (next m)); [lia|]. rewrite Hg by exact Hp. f_equal.
      rewrite (bwd_ext (MV m2) (MV m) cb Y Y p Hok Hp); [ring| |reflexivity].
      intros o r c Hc p' q' _ _. eapply mfun_keeps; [exact K2|]. intros a Ha'. apply Dv. eapply invs_node; eauto.
    + apply keeps_dealloc; [lia|]. eapply keeps_trans; [eapply keeps_mono; [|exact K2]; cbn; auto|]. eapply keeps_mono; [|exact Hk3].
      intros a [H1|H1]; [right; apply Ip, H1|left; exact H1].
Qed.

Lemma cbmat_keeps_root m m1 cb (W : addr -> Prop) : keeps W m m1 -> disj (incb cb) W -> forall p q, cbmat m1 cb p q = cbmat m cb p q.
Proof. intros H1 H2 p q. apply (cbmat_keeps W); assumption. Qed.

Lemma wp_addeval_cb alpha cb R W yc yp C B m (Q : unit -> mem K -> Prop) :
  cbok cb -> cbinit m cb -> vdim yc = cb_k cb -> vval m yc C -> vdim yp = cb_size cb -> vval m yp B ->
  vblk yc < next m -> vblk yp < next m -> (forall a, incb cb a -> fst a < next m) ->
  disj (incb cb) (inv yp) -> rdok R W (incb cb) -> rdok R W (inv yc) -> wrok W (inv yp) ->
  (forall m', vval m' yp (fun p => B p + alpha * sum (cb_k cb) (fun q => cbmat m cb p q * C q))%F -> keeps (inv yp) m m' -> Q tt m') ->
  wp R W (addeval_clusterbasis_avector alpha cb yc yp) m Q.
Proof.
  intros Hok Hini Ec HC Ep HB Bc Bp Bv D1 R1 R2 W1 HQ. unfold addeval_clusterbasis_avector. wstep. wstep.
  apply wp_tmp.
  intros yt m1 Et Hat N1 K1. pose proof (cbok_kbranch_k cb Hok) as Hkb. assert (Edt : vdim yt = cb_kbranch cb) by (rewrite Et; reflexivity).
  assert (Ip : forall a, inv yt a -> fst a = next m) by (intros a Ha'; apply inv_blk in Ha'; rewrite Ha', Et; reflexivity).
  pose proof (blk_disj (next m) (incb cb) Bv) as Dv. pose proof (blk_disj (next m) (inv yc) (fun a => inv_below _ _ a Bc)) as Dc.
  pose proof (blk_disj (next m) (inv yp) (fun a => inv_below _ _ a Bp)) as Dp.
  set (W1' := fun a => W a \/ fst a = next m). assert (Wt : wrok W1' (inv yt)) by (intros a Ha; right; apply Ip, Ha).
  apply wp_bind, wp_init_sub_avector; [lia|].
  assert (Is : forall a, inv (subv yt 0 (cb_k cb)) a -> fst a = next m) by (intros a Ha; apply Ip; eapply inv_subv; [|exact Ha]; lia).
  apply wp_bind. eapply (wp_copy_avector R W1' yc (subv yt 0 (cb_k cb)) C).
  { eapply vval_keeps; [exact HC|exact K1|exact Dc]. }
  { apply valloc_subv; [exact Hat|lia]. }
  { cbn. lia. }
  { intros a H1 H2. apply (Dc a H1), Is, H2. }
  { apply rdok_tmp, R2. }
  { apply inv_subv_w; [lia|exact Wt]. }
  intros m2 Hv2 Hk2. apply wp_bind. eapply wp_scale_avector; [exact Hv2|apply inv_subv_w; [lia|exact Wt]|].
  intros m3 Hv3 Hk3. unfold uninit_avector at 1. cbn [vown subv bind].
  assert (K3t : keeps (inv (subv yt 0 (cb_k cb))) m1 m3) by (eapply keeps_trans; [exact Hk2|exact Hk3]).
  assert (K3 : keeps (fun a => fst a = next m) m m3) by (eapply keeps_trans; [exact K1|eapply keeps_mono; [exact Is|exact K3t]]).
  apply wp_bind. eapply (wp_expand L cb) with (B := B); [exact Hok| |exact Edt| |exact Hv3|exact Ep| | | |exact D1| |exact Wt| |].
  - eapply cbinit_keeps; [exact Hini|exact K3|exact Dv].
  - eapply valloc_sub_keeps; [|exact Hat|exact Hv3|exact K3t]. lia.
  - eapply vval_keeps; [exact HB|exact K3|exact Dp].
  - intros a H1 H2. apply (Dp a H2), Ip, H1.
  - intros a H1 H2. apply (Dv a H1), Ip, H2.
  - apply rdok_tmp, R1.
  - apply wrok_tmp, W1.
  - intros m4 Hv4 _ _ Hk4. pose proof (proj1 Hk4). pose proof (proj1 K3t). eapply wp_untmp; [exact Et|lia|]. apply HQ.
    + apply vval_dealloc; [|lia]. eapply vval_ext; [exact Hv4|]. intros p Hp; cbv beta. f_equal. rewrite <- (sum_mul_l L). apply sum_ext. intros q Hq.
      rewrite (cbmat_keeps_root m m3 cb _ K3 Dv). ring.
    + apply keeps_dealloc; [lia|]. eapply keeps_trans; [eapply keeps_mono; [|exact K3]; cbn; auto|]. eapply keeps_mono; [|exact Hk4].
      intros a [H1|H1]; [right; apply Ip, H1|left; exact H1].
Qed.

Lemma wp_addevaltrans_cb alpha cb R W xp xc X C m (Q : unit -> mem K -> Prop) :
  cbok cb -> cbinit m cb -> vdim xp = cb_size cb -> vval m xp X -> vdim xc = cb_k cb -> vval m xc C ->
  vblk xp < next m -> vblk xc < next m -> (forall a, incb cb a -> fst a < next m) ->
  rdok R W (incb cb) -> rdok R W (inv xp) -> wrok W (inv xc) ->
  (forall m', vval m' xc (fun q => C q + alpha * sum (cb_size cb) (fun p => fconj (cbmat m cb p q) * X p))%F -> keeps (inv xc) m m' -> Q tt m') ->
  wp R W (addevaltrans_clusterbasis_avector alpha cb xp xc) m Q.
Proof.
  intros Hok Hini Ep HX Ec HC Bp Bc Bv R1 R2 W1 HQ. unfold addevaltrans_clusterbasis_avector. wstep. wstep.
  apply wp_tmp.
  intros xt m1 Et Hat N1 K1. pose proof (cbok_kbranch_k cb Hok) as Hkb. assert (Edt : vdim xt = cb_kbranch cb) by (rewrite Et; reflexivity).
  assert (Ip : forall a, inv xt a -> fst a = next m) by (intros a Ha'; apply inv_blk in Ha'; rewrite Ha', Et; reflexivity).
  pose proof (blk_disj (next m) (incb cb) Bv) as Dv. pose proof (blk_disj (next m) (inv xc) (fun a => inv_below _ _ a Bc)) as Dc.
  pose proof (blk_disj (next m) (inv xp) (fun a => inv_below _ _ a Bp)) as Dp.
  set (W1' := fun a => W a \/ fst a = next m). assert (Wt : wrok W1' (inv xt)) by (intros a Ha; right; apply Ip, Ha).
  apply wp_bind. eapply (wp_compress L cb) with (X := X); [exact Hok| |exact Edt|exact Hat|exact Ep| | | | | |exact Wt|].
  - eapply cbinit_keeps; [exact Hini|exact K1|exact Dv].
  - eapply vval_keeps; [exact HX|exact K1|exact Dp].
  - intros a H1 H2. apply (Dp a H1), Ip, H2.
  - intros a H1 H2. apply (Dv a H1), Ip, H2.
  - apply rdok_tmp, R1.
  - apply rdok_tmp, R2.
  - intros m2 Hv2 _ Hk2. assert (K2 : keeps (fun a => fst a = next m) m m2) by (eapply keeps_trans; [exact K1|eapply keeps_mono; [exact Ip|exact Hk2]]).
    apply wp_bind, wp_init_sub_avector; [lia|].
    assert (Is : forall a, inv (subv xt 0 (cb_k cb)) a -> fst a = next m) by (intros a Ha; apply Ip; eapply inv_subv; [|exact Ha]; lia).
    apply wp_bind. eapply (wp_add_avector R W1' alpha (subv xt 0 (cb_k cb)) xc).
    { exact Hv2. }
    { eapply vval_keeps; [exact HC|exact K2|exact Dc]. }
    { cbn. lia. }
    { intros a H1 H2. apply (Dc a H2), Is, H1. }
    { intros a Ha. right. right. apply Is, Ha. }
    { apply wrok_tmp, W1. }
    intros m3 Hv3 Hk3. pose proof (proj1 Hk3). pose proof (proj1 Hk2). unfold uninit_avector at 1. cbn [vown subv bind]. eapply wp_untmp; [exact Et|lia|]. apply HQ.
    + apply vval_dealloc; [|lia]. eapply vval_ext; [exact Hv3|]. intros q Hq; cbv beta. cbn [vdim subv]. destruct (Nat.ltb_spec q (cb_k cb)); [|lia]. f_equal. f_equal. unfold fwdc. apply sum_ext. intros p Hp.
      rewrite (cbmat_keeps_root m m1 cb _ K1 Dv). reflexivity.
    + apply keeps_dealloc; [lia|]. eapply keeps_trans; [eapply keeps_mono; [|exact K2]; cbn; auto|]. eapply keeps_mono; [|exact Hk3]. auto.
Qed.
End P6.
