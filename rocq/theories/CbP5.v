(** * Backward transformation with separate matrices, compression and expansion *)
From Coq Require Import Arith Lia List Bool Ring.
From Verif Require Import Fld Ord Prog Arr View Loop Spec Cluster Block Avector AvectorP Amatrix AmatrixP Hmatrix HmSpec HmP Clusterbasis CbSpec CbP CbP2 CbP3 CbP4.
Import ListNotations.

Section P5.
Context {K : fops} {G : ofops} (L : ring_laws K).
Add Ring KringCb5 : (rl_ring K L).
Implicit Types (m : mem K) (cb c s : cbasis G) (X Y B : nat -> K).
Local Notation MV m := (fun c => mfun m (cb_V c)).

Lemma wp_backward_not idx cb : forall R W yt y yp ip Y B P m (Q : unit -> mem K -> Prop),
  cbok cb -> vsok cb -> cbplaced cb -> vsinit m cb -> vdim yt = cb_ktree cb -> vval m yt Y -> vdim yp = cb_size cb -> vval m yp P ->
  perm_trg idx m y (cb_off cb) (cb_size cb) ip B -> injn ip (cb_size cb) ->
  disj (inv yt) (cells (fun p => va y (ip p)) (cb_size cb)) -> disj (inv yp) (cells (fun p => va y (ip p)) (cb_size cb)) -> disj (inv yt) (inv yp) ->
  disj (invs cb) (inv yp) -> disj (invs cb) (cells (fun p => va y (ip p)) (cb_size cb)) ->
  rdok R W (invs cb) -> rdok R W (inv yt) -> wrok W (inv yp) -> wrok W (cells (fun p => va y (ip p)) (cb_size cb)) ->
  (forall m', (forall p, p < cb_size cb -> get m' (va y (ip p)) = Val (B p + (P p + bwd_of (MV m) cb Y p))%F) ->
     (exists Y', vval m' yp Y') -> keeps (fun a => inv yp a \/ cells (fun p => va y (ip p)) (cb_size cb) a) m m' -> Q tt m') ->
  wp R W (backward_notransfer idx cb yt y yp) m Q.
Proof.
  induction cb as [cb IH] using cb_rect'. intros R W yt y yp ip Y B P m Q Hok Hvs Hpl Hini Ex HY Exp HP Ht Hinj D1 D1' Dp D2 D3 R1 R2 W1 W2 HQ.
  destruct cb as [t k kt kb V E l Z] eqn:Ecb. cbn [backward_notransfer].
  assert (Hkk : k <= kt) by exact (cbok_k_ktree _ Hok). change (vdim yp = csz t) in Exp.
  destruct (vsok_self _ Hvs) as [EV1 EV2]. change (mrows V = csz t) in EV1. change (mcols V = k) in EV2.
  change (cb_size (CB t k kt kb V E l Z)) with (csz t) in *.
  pose (out := fun p => va y (ip p)). fold out in D1, D1', D3, W2, HQ.
  pose (W2' := fun a => inv yp a \/ cells out (csz t) a). fold W2' in HQ.
  assert (D4 : disj (invs (CB t k kt kb V E l Z)) W2') by (intros a Hx [Hy|Hy]; [apply (D2 a Hx Hy)|apply (D3 a Hx Hy)]).
  assert (Dt : disj (inv yt) W2') by (intros a Hx [Hy|Hy]; [apply (Dp a Hx Hy)|apply (D1 a Hx Hy)]).
  assert (DV : disj (inm V) (inv yp)) by (intros a Hx Hy; apply (D2 a); [constructor; exact Hx|exact Hy]).
  cbn [cb_ktree] in Ex. wstep. wstep.
  apply wp_bind, wp_init_sub_avector; [lia|]. apply wp_bind.
  eapply (wp_mvm_pre R W f1 false V (subv yt 0 k) yp k (csz t)) with (g := Y) (h := P); [congruence|congruence|cbn; lia|lia| | | | | | | | |].
  { apply mval_mfun. intros a Ha. apply Hini. constructor. exact Ha. }
  { rewrite subv_subv. apply (vval_subv m yt Y 0); [exact HY|lia]. }
  { apply (vval_subv m yp P 0); [exact HP|lia]. }
  { apply (subv_disj yt); [lia|exact DV]. }
  { rewrite subv_subv. apply disj_subv; [lia|]. apply (subv_disj yt); [lia|exact Dp]. }
  { intros a Ha'. apply R1. constructor. exact Ha'. }
  { rewrite subv_subv. apply inv_subv_r; [lia|exact R2]. }
  { apply inv_subv_w; [lia|exact W1]. }
  intros m0 Hv0 Hk0. assert (K0 : keeps W2' m m0) by (eapply keeps_mono; [|eapply keeps_subv; [|exact Hk0]; lia]; intros a Ha; left; exact Ha).
  assert (HP0 : forall p, p < csz t -> get m0 (va yp p) = Val (P p + sum k (fun q => mfun m V p q * Y q))%F).
  { intros p Hp. specialize (Hv0 p Hp). rewrite va_subv0 in Hv0. rewrite Hv0. f_equal. unfold tr. ring. }
  assert (HO0 : forall p, p < csz t -> get m0 (out p) = Val (B p)).
  { intros p Hp. rewrite (proj2 Hk0); [apply Ht; exact Hp|]. intros Hb. apply (D1' (out p)); [eapply inv_subv; [|exact Hb]; lia|exists p; auto]. }
  destruct l as [|s0 l0].
  - apply wp_bind. destruct (cbok_leaf_inv _ _ _ _ _ _ _ Hok) as (-> & -> & _ & _).
    apply wp_bind, wp_init_sub_avector; [lia|].
    apply (wp_for (fun i m1 => keeps (cells out (csz t)) m0 m1 /\ (forall p, p < csz t -> get m1 (out p) = Val (if p <? i then B p + ((P p + sum k (fun q => mfun m V p q * Y q)) + Y (k + p)%nat) else B p)%F))).
    + split; [apply keeps_refl|]. intros p Hp. cbn. apply HO0, Hp.
    + intros i m1 [_ Hi] (Hk1 & Hg). cbn in Hi. destruct (Ht i Hi) as (A1 & A2 & _).
      apply wp_bind, wp_lift. change (c_off (cp_c t) + i) with (cb_off (CB t k (k + csz t) (k + csz t) V E [] Z) + i). rewrite A1. cbn [rok]. wstep.
      assert (Ci : cells out (csz t) (out i)) by (exists i; auto).
      pose proof (Hg i Hi) as Gi. rewrite Nat.ltb_irrefl in Gi.
      apply wp_bind. eapply wp_pload; [exact Gi|right; apply W2, Ci|]. apply wp_bind.
      eapply wp_pload; [rewrite (proj2 Hk1); [apply HP0, Hi|]|right; apply W1; exists i; split; [lia|reflexivity]|].
      { intros Hb. apply (D1' (va yp i)); [exists i; split; [lia|reflexivity]|exact Hb]. }
      apply wp_bind. unfold vload. rewrite va_subv. eapply wp_pload; [rewrite (proj2 Hk1)|apply R2; exists (k + i); split; [lia|reflexivity]|].
      { rewrite (proj2 Hk0); [apply HY; lia|]. intros Hb. apply (Dp (va yt (k + i))); [exists (k + i); split; [lia|reflexivity]|eapply inv_subv; [|exact Hb]; lia]. }
      { intros Hb. apply (D1 (va yt (k + i))); [exists (k + i); split; [lia|reflexivity]|exact Hb]. }
      apply wp_pstore; [change (va y (ip i)) with (out i); rewrite Gi; discriminate|apply W2, Ci|]. split; [eapply keeps_trans; [exact Hk1|apply keeps_upd, Ci]|].
      intros p Hp. destruct (Nat.eq_dec p i) as [->|Hne].
      * rewrite get_upd_same by (change (va y (ip i)) with (out i); rewrite Gi; discriminate). destruct (Nat.ltb_spec i (S i)); [reflexivity|lia].
      * rewrite get_upd_other by (intros Eq; apply va_inj in Eq; apply Hne; apply Hinj; auto). rewrite (Hg p Hp).
        destruct (Nat.ltb_spec p i), (Nat.ltb_spec p (S i)); try lia; reflexivity.
    + intros m1 (Hk1 & Hg). cbn [Nat.add] in Hg. cbn [uninit_avector vown subv wp]. apply HQ.
      * intros p Hp. change (va y (ip p)) with (out p). rewrite (Hg p Hp). pose proof Hp as Hp'. apply Nat.ltb_lt in Hp. rewrite Hp. f_equal.
        rewrite (bwd_leaf L) by (try reflexivity; exact Hp'). cbn [cb_k cb_V]. ring.
      * eexists. eapply vval_keeps; [|exact Hk1|exact D1']. intros p Hp. apply HP0. lia.
      * eapply keeps_trans; [exact K0|]. eapply keeps_mono; [|exact Hk1]. intros a Ha. right. exact Ha.
  - remember (s0 :: l0) as l eqn:El. assert (Hln : l <> []) by (subst l; discriminate).
    pose (cb' := CB t k kt kb V E l Z). fold cb' in Hok, Hvs, Hpl, Hini, D2, D3, D4, R1, HQ, IH, Ht.
    pose proof (cbok_size cb' Hok Hln) as Esz. change (csz t = nsum (length l) (at_ cb_size l)) in Esz.
    pose proof (cbok_ktree_node cb' Hok Hln) as Ekt. change (kt = k + nsum (length l) (at_ cb_ktree l)) in Ekt.
    apply wp_bind. rewrite El. cbv zeta. rewrite <- El. apply wp_bind. unfold sons. rewrite map_length.
    apply (wp_forS (fun i offs m1 => offs = (k + nsum i (at_ cb_ktree l), nsum i (at_ cb_size l)) /\ keeps W2' m m1 /\
      (forall p, p < csz t -> exists v, get m1 (va yp p) = Val v) /\
      (forall p, nsum i (at_ cb_size l) <= p < csz t -> get m1 (va yp p) = Val (P p + sum k (fun q => mfun m V p q * Y q))%F) /\
      (forall p, p < csz t -> get m1 (out p) = Val (if p <? nsum i (at_ cb_size l) then B p + (P p + bwd_of (MV m) cb' Y p) else B p)%F))).
    + split; [cbn [nsum]; rewrite Nat.add_0_r; reflexivity|]. split; [exact K0|]. split; [intros p Hp; eexists; apply HP0, Hp|]. split; [intros p Hp; apply HP0; lia|].
      intros p Hp. cbn. apply HO0, Hp.
    + intros i offs m1 [_ Hi] (-> & K1 & I1 & I2 & I3). cbn in Hi. destruct (nth_ex l i Hi) as [s Hsi].
      rewrite (sget_map _ _ _ _ Hsi). cbn [bind fst snd]. destruct (nth_in _ _ _ Hsi) as [_ Hin].
      assert (Hr1 : nsum i (at_ cb_size l) + cb_size s <= csz t) by apply (son_room cb' i s Hok Hsi).
      assert (Hr2 : k + nsum i (at_ cb_ktree l) + cb_ktree s <= kt) by apply (son_room cb' i s Hok Hsi).
      destruct (placed_son cb' i s Hpl Hsi) as [Eo Hpls]. destruct (cbok_son cb' s Hok Hin) as (Hoks & _ & _).
      assert (D4s : disj (invs s) W2') by (intros a Ha'; apply D4; eapply invs_son; eauto).
      apply wp_bind, wp_init_sub_avector; [lia|]. apply wp_bind, wp_init_sub_avector; [lia|]. apply wp_bind.
      set (off := k + nsum i (at_ cb_ktree l)) in *. set (po := nsum i (at_ cb_size l)) in *.
      eapply (IH s Hin R W (subv yt off (cb_ktree s)) y (subv yp po (cb_size s)) (fun p => ip (po + p)) (shiftv Y off) (shiftv B po)
        (fun p => P (po + p)%nat + sum k (fun q => mfun m V (po + p)%nat q * Y q))%F).
      * exact Hoks.
      * eapply vsok_son; [exact Hvs|exact Hsi].
      * exact Hpls.
      * intros a Ha'. destruct (Hini a) as [v Hv]; [eapply invs_son; eauto|]. exists v. rewrite (proj2 K1); [exact Hv|]. intros Hw; exact (D4s a Ha' Hw).
      * reflexivity.
      * apply (vval_subv m1 yt Y); [|lia]. eapply vval_keeps; [exact HY|exact K1|exact Dt].
      * reflexivity.
      * intros p Hp. cbn in Hp. rewrite va_subv. apply I2. lia.
      * intros p Hp. rewrite Eo. cbn [cb_son cb']. fold po. destruct (Ht (po + p)) as (B1 & B2 & _); [lia|]. rewrite <- Nat.add_assoc.
        split; [exact B1|]. split; [exact B2|]. change (va y (ip (po + p))) with (out (po + p)). rewrite I3 by lia. destruct (Nat.ltb_spec (po + p) po); [lia|reflexivity].
      * intros p q Hp Hq Eq. apply Hinj in Eq; lia.
      * apply disj_subv; [lia|]. intros a Ha' Hb. apply (D1 a Ha'). eapply (cells_mono out _ (cb_size s) po); [lia|exact Hb].
      * apply disj_subv; [lia|]. intros a Ha' Hb. apply (D1' a Ha'). eapply (cells_mono out _ (cb_size s) po); [lia|exact Hb].
      * apply disj_subv; [lia|]. apply (subv_disj yt); [lia|exact Dp].
      * apply (subv_disj yt); [lia|]. intros a Ha' Hb. apply (D4s a Ha'). left. exact Hb.
      * intros a Ha' Hb. apply (D4s a Ha'). right. eapply (cells_mono out _ (cb_size s) po); [lia|exact Hb].
      * intros a Ha'. apply R1. eapply invs_son; eauto.
      * apply inv_subv_r; [lia|exact R2].
      * apply inv_subv_w; [lia|exact W1].
      * intros a Ha'. apply W2. eapply (cells_mono out _ (cb_size s) po); [lia|exact Ha'].
      * intros m3 Hg3 [Y3 HY3] Hk3. cbn [uninit_avector vown subv bind wp nsum]. rewrite !(at_nth _ _ _ _ Hsi). fold po.
        assert (K3 : keeps W2' m1 m3). { eapply keeps_mono; [|exact Hk3]. intros a [Hb|Hb]; [left; eapply inv_subv; [|exact Hb]; lia|right; eapply (cells_mono out _ (cb_size s) po); [lia|exact Hb]]. }
        assert (G1 : forall p, p < csz t -> p < po \/ po + cb_size s <= p -> get m3 (va yp p) = get m1 (va yp p)).
        { intros p Hp Hc. apply (proj2 Hk3). intros [Hb|Hb]; [revert Hb; apply notin_subv; lia|].
          apply (D1' (va yp p)); [exists p; split; [lia|reflexivity]|]. eapply (cells_mono out _ (cb_size s) po); [lia|exact Hb]. }
        assert (G2 : forall p, p < csz t -> p < po \/ po + cb_size s <= p -> get m3 (out p) = get m1 (out p)).
        { intros p Hp Hc. apply (proj2 Hk3). intros [Hb|Hb].
          - apply (D1' (out p)); [eapply inv_subv; [|exact Hb]; lia|exists p; auto].
          - revert Hb. apply (cells_sep out (csz t)); [intros a b Ha Hb E'; apply va_inj in E'; apply Hinj; auto|lia|exact Hp|exact Hc]. }
        split; [unfold off; f_equal; lia|]. split; [eapply keeps_trans; [exact K1|exact K3]|]. split; [|split].
        -- intros p Hp. destruct (Nat.lt_ge_cases p po); [rewrite G1 by lia; apply I1, Hp|].
           destruct (Nat.lt_ge_cases p (po + cb_size s)); [|rewrite G1 by lia; apply I1, Hp].
           exists (Y3 (p - po)). specialize (HY3 (p - po)). rewrite va_subv in HY3. replace (po + (p - po)) with p in HY3 by lia. apply HY3. cbn. lia.
        -- intros p Hp. rewrite G1 by lia. apply I2. lia.
        -- intros p Hp. destruct (Nat.lt_ge_cases p po).
           ++ rewrite G2 by lia. rewrite I3 by lia. destruct (Nat.ltb_spec p po), (Nat.ltb_spec p (po + cb_size s)); try lia. reflexivity.
           ++ destruct (Nat.lt_ge_cases p (po + cb_size s)).
              ** destruct (Nat.ltb_spec p (po + cb_size s)); [|lia]. specialize (Hg3 (p - po)). cbv beta in Hg3. unfold shiftv in Hg3.
                 replace (po + (p - po)) with p in Hg3 by lia. change (va y (ip p)) with (out p) in Hg3. rewrite Hg3 by lia. f_equal.
                 pose proof (bwd_node L (MV m) cb' Y i s (p - po) Hok Hsi ltac:(lia)) as HT. cbn [cb_k cb_son cb' cb_V] in HT. fold po off in HT.
                 replace (po + (p - po)) with p in HT by lia. change (CB t k kt kb V E l Z) with cb' in HT. rewrite HT.
                 change (fun p0 : nat => Y (off + p0)%nat) with (shiftv Y off).
                 rewrite (bwd_ext (MV m1) (MV m) s (shiftv Y off) (shiftv Y off) (p - po) Hoks).
                 --- ring.
                 --- lia.
                 --- intros o r c Hc p' q' _ _. eapply mfun_keeps; [exact K1|]. intros a Ha'. apply D4s. eapply invs_node; eauto.
                 --- reflexivity.
              ** rewrite G2 by lia. rewrite I3 by lia. destruct (Nat.ltb_spec p po), (Nat.ltb_spec p (po + cb_size s)); try lia. reflexivity.
    + intros offs m1 (-> & K1 & I1 & I2 & I3). cbn [Nat.add fst snd] in I2, I3 |- *. wstep. wstep. cbn [uninit_avector vown subv wp]. apply HQ; [| |exact K1].
      * intros p Hp. change (va y (ip p)) with (out p). rewrite I3 by exact Hp. destruct (Nat.ltb_spec p (nsum (length l) (at_ cb_size l))); [reflexivity|lia].
      * exists (fun o => match get m1 (va yp o) with Val v => v | _ => f0 end). intros o Ho. destruct (I1 o) as [v Hv]; [lia|]. rewrite Hv. reflexivity.
Qed.

(** ** Compression and expansion for the root *)
Lemma cbok_kb_node cb s : cbok cb -> In s (cb_son cb) -> cb_k cb + cb_kbranch s <= cb_kbranch cb.
Proof. apply cbok_kbranch. Qed.

Lemma wp_compress cb : forall R W xp xt X m (Q : unit -> mem K -> Prop),
  cbok cb -> cbinit m cb -> vdim xt = cb_kbranch cb -> valloc m xt -> vdim xp = cb_size cb -> vval m xp X ->
  disj (inv xp) (inv xt) -> disj (incb cb) (inv xt) -> rdok R W (incb cb) -> rdok R W (inv xp) -> wrok W (inv xt) ->
  (forall m', vval m' (subv xt 0 (cb_k cb)) (fwdc (cbmat m) cb X) -> valloc m' xt -> keeps (inv xt) m m' -> Q tt m') ->
  wp R W (compress_clusterbasis_avector cb xp xt) m Q.
Proof.
  induction cb as [cb IH] using cb_rect'. intros R W x xt X m Q Hok Hini Ex Ha Exp Hs D1 D2 R1 R2 W1 HQ.
  destruct cb as [t k kt kb V E l Z] eqn:Ecb. cbn [compress_clusterbasis_avector].
  assert (Hkk : k <= kb) by exact (cbok_kbranch_k _ Hok). change (vdim x = csz t) in Exp.
  cbn [cb_kbranch] in Ex. cbn [cb_k] in HQ. wstep.
  apply wp_bind, wp_init_sub_avector; [lia|].
  apply wp_bind, wp_clear_avector; [apply valloc_subv; [exact Ha|lia]|apply inv_subv_w; [lia|exact W1]|].
  intros m0 Hc0 Hk0. assert (K0 : keeps (inv xt) m m0) by (eapply keeps_subv; [|exact Hk0]; lia).
  assert (Ha0 : valloc m0 xt) by (eapply valloc_sub_keeps; [|exact Ha|exact Hc0|exact Hk0]; lia).
  destruct l as [|s0 l0].
  - destruct (cbok_leaf_inv _ _ _ _ _ _ _ Hok) as (-> & -> & EV1 & EV2).
    assert (D3 : disj (inm V) (inv xt)) by (intros a Ha'; apply D2; constructor; exact Ha').
    apply wp_bind.
    eapply (wp_mvm_pre R W f1 true V x (subv xt 0 k) (csz t) k) with (g := X) (h := fun _ => f0); [congruence|congruence|lia|cbn; lia| | | | | | | | |].
    { eapply mval_keeps; [eapply cbinit_V; exact Hini|exact K0|exact D3]. }
    { apply (vval_subv m0 x X 0); [|lia]. eapply vval_keeps; [exact Hs|exact K0|exact D1]. }
    { rewrite subv_subv. exact Hc0. }
    { rewrite subv_subv. apply (subv_disj x); [lia|exact D3]. }
    { rewrite subv_subv. apply disj_subv; [lia|]. apply (subv_disj x); [lia|exact D1]. }
    { intros a Ha'. apply R1. constructor. exact Ha'. }
    { apply inv_subv_r; [lia|exact R2]. }
    { rewrite subv_subv. apply inv_subv_w; [lia|exact W1]. }
    intros m2 Hv2 Hk2. rewrite subv_subv, Nat.add_0_l in Hv2, Hk2. cbn [uninit_avector vown subv wp]. apply HQ.
    + eapply vval_ext; [exact Hv2|]. intros q Hq; cbv beta. unfold fwdc, tr. rewrite (cbmat_leaf m) by reflexivity. cbn [cb_V]. unfold cb_size; cbn [cb_t]. ring.
    + eapply valloc_sub_keeps; [|exact Ha0|exact Hv2|exact Hk2]. lia.
    + eapply keeps_trans; [exact K0|]. eapply keeps_subv; [|exact Hk2]; lia.
  - remember (s0 :: l0) as l eqn:El. assert (Hln : l <> []) by (subst l; discriminate).
    pose (cb' := CB t k kt kb V E l Z). fold cb' in Hok, Hini, D2, R1, HQ, IH.
    pose proof (cbok_size cb' Hok Hln) as Esz. change (csz t = nsum (length l) (at_ cb_size l)) in Esz.
    apply wp_bind. rewrite El. cbv zeta. rewrite <- El. apply wp_bind. unfold sons. rewrite map_length.
    apply (wp_forS (fun i off m1 => off = nsum i (at_ cb_size l) /\ (forall q, q < k -> get m1 (va xt q) = Val (fwd_part m cb' X i q)) /\ keeps (inv xt) m m1 /\ valloc m1 xt)).
    + split; [reflexivity|]. split; [|split; [exact K0|exact Ha0]]. intros o Ho. specialize (Hc0 o). rewrite va_subv0 in Hc0. apply Hc0. exact Ho.
    + intros i off m1 [_ Hi] (-> & HI & K1 & Ha1). cbn in Hi. destruct (nth_ex l i Hi) as [s Hsi].
      rewrite (sget_map _ _ _ _ Hsi). cbn [bind fst snd]. destruct (nth_in _ _ _ Hsi) as [_ Hin].
      assert (Hr1 : nsum i (at_ cb_size l) + cb_size s <= csz t) by apply (son_room cb' i s Hok Hsi).
      assert (Hr2 : k + cb_kbranch s <= kb) by apply (cbok_kbranch cb' s Hok Hin).
      destruct (cbok_son cb' s Hok Hin) as (Hoks & E1 & E2). cbn [cb_k cb'] in E2. pose proof (cbok_kbranch_k s Hoks) as Hks.
      assert (DE : disj (inm (cb_E s)) (inv xt)) by (intros a Ha'; apply D2; eapply incb_E; eauto).
      apply wp_bind, wp_init_sub_avector; [lia|]. apply wp_bind, wp_init_sub_avector; [lia|]. apply wp_bind.
      eapply (IH s Hin R W (subv x (nsum i (at_ cb_size l)) (cb_size s)) (subv xt k (cb_kbranch s)) (shiftv X (nsum i (at_ cb_size l)))).
      * exact Hoks.
      * eapply cbinit_keeps; [eapply cbinit_son; [exact Hini|exact Hin]|exact K1|]. apply (son_disj _ cb' s Hin D2).
      * reflexivity.
      * apply valloc_subv; [exact Ha1|lia].
      * reflexivity.
      * apply vval_subv; [|lia]. eapply vval_keeps; [exact Hs|exact K1|exact D1].
      * apply disj_subv; [lia|]. apply (subv_disj x); [lia|exact D1].
      * apply (subv_disj x); [lia|]. apply (son_disj _ cb' s Hin D2).
      * apply (son_w _ _ cb' s Hin R1).
      * apply inv_subv_r; [lia|exact R2].
      * apply inv_subv_w; [lia|exact W1].
      * intros m2 Hv2 Hal2 Hk2. rewrite subv_subv, Nat.add_0_r in Hv2.
        assert (K2 : keeps (inv xt) m m2) by (eapply keeps_trans; [exact K1|eapply keeps_subv; [|exact Hk2]; lia]).
        apply wp_bind.
        eapply (wp_mvm_pre R W f1 true (cb_E s) (subv xt k (cb_kbranch s)) (subv xt 0 k) (cb_k s) k) with (h := fwd_part m cb' X i);
          [congruence|congruence|cbn; lia|cbn; lia| |rewrite subv_subv, Nat.add_0_r; exact Hv2| | | | | | |].
        { eapply mval_keeps; [exact (cbinit_E m cb' s Hini Hin)|exact K2|exact DE]. }
        { rewrite subv_subv. intros q Hq. cbn in Hq. rewrite va_subv0. rewrite (proj2 Hk2) by (apply notin_subv; lia). apply HI, Hq. }
        { rewrite subv_subv. apply (subv_disj x); [lia|exact DE]. }
        { rewrite !subv_subv. apply subv_sep. lia. }
        { intros a Ha'. apply R1. eapply incb_E; eauto. }
        { rewrite subv_subv. apply inv_subv_r; [lia|]. intros a Ha'. right. apply W1, Ha'. }
        { rewrite subv_subv. apply inv_subv_w; [lia|exact W1]. }
        intros m3 Hv3 Hk3. rewrite subv_subv, Nat.add_0_l in Hv3, Hk3. cbn [uninit_avector vown subv bind wp nsum]. rewrite (at_nth _ _ _ _ Hsi).
        split; [reflexivity|]. split; [|split].
        -- intros q Hq. specialize (Hv3 q). rewrite va_subv0 in Hv3. rewrite Hv3 by exact Hq. f_equal. unfold fwd_part. cbn [sum]. cbn [cb_son cb'].
           rewrite (onth_nth _ _ _ _ Hsi). rewrite (sum_ext (cb_k s) _ (fun r => fconj (mfun m (cb_E s) r q) * fwdc (cbmat m) s (shiftv X (nsum i (at_ cb_size l))) r)%F); [ring|].
           intros r Hr. unfold tr. f_equal. unfold fwdc. apply sum_ext. intros p Hp. f_equal. f_equal.
           apply (cbmat_son_keeps m m1 cb' s (inv xt) Hin K1 D2 0 0 s (nodes_self s) p r Hp Hr).
        -- eapply keeps_trans; [exact K2|eapply keeps_subv; [|exact Hk3]; cbn; lia].
        -- eapply (valloc_sub_keeps m2); [|  |exact Hv3|exact Hk3]; [lia|]. intros q Hq. destruct (Nat.lt_ge_cases q k).
           ++ rewrite (proj2 Hk2) by (apply notin_subv; lia). rewrite HI by assumption. discriminate.
           ++ destruct (Nat.lt_ge_cases q (k + cb_kbranch s)).
              ** specialize (Hal2 (q - k)). rewrite va_subv in Hal2. replace (k + (q - k)) with q in Hal2 by lia. apply Hal2. cbn. lia.
              ** rewrite (proj2 Hk2) by (apply notin_subv; lia). apply Ha1, Hq.
    + intros off m1 (-> & HI & K1 & Ha1). cbn [Nat.add] in HI |- *. wstep. cbn [uninit_avector vown subv wp]. apply HQ; [|exact Ha1|exact K1].
      intros q Hq. cbn in Hq. rewrite va_subv0. rewrite HI by exact Hq. f_equal. symmetry. apply (fwdc_node L); assumption.
Qed.

Lemma wp_expand cb : forall R W yt yp C B m (Q : unit -> mem K -> Prop),
  cbok cb -> cbinit m cb -> vdim yt = cb_kbranch cb -> valloc m yt -> vval m (subv yt 0 (cb_k cb)) C -> vdim yp = cb_size cb -> vval m yp B ->
  disj (inv yt) (inv yp) -> disj (incb cb) (inv yt) -> disj (incb cb) (inv yp) -> rdok R W (incb cb) -> wrok W (inv yt) -> wrok W (inv yp) ->
  (forall m', vval m' yp (fun p => B p + sum (cb_k cb) (fun q => cbmat m cb p q * C q))%F -> vval m' (subv yt 0 (cb_k cb)) C -> valloc m' yt ->
     keeps (fun a => inv yt a \/ inv yp a) m m' -> Q tt m') ->
  wp R W (expand_clusterbasis_avector cb yt yp) m Q.
Proof.
  induction cb as [cb IH] using cb_rect'. intros R W yt yp C B m Q Hok Hini Ex Ha HC Exp HB D1 D2 D3 R1 W1 W2 HQ.
  destruct cb as [t k kt kb V E l Z] eqn:Ecb. cbn [expand_clusterbasis_avector].
  assert (Hkk : k <= kb) by exact (cbok_kbranch_k _ Hok). change (vdim yp = csz t) in Exp.
  cbn [cb_kbranch] in Ex. cbn [cb_k] in HQ, HC. wstep.
  apply wp_bind, wp_init_sub_avector; [lia|].
  assert (Dyt : disj (inv yp) (inv yt)) by (intros a H1 H2; exact (D1 a H2 H1)).
  destruct l as [|s0 l0].
  - destruct (cbok_leaf_inv _ _ _ _ _ _ _ Hok) as (-> & -> & EV1 & EV2).
    assert (D4 : disj (inm V) (inv yp)) by (intros a Ha'; apply D3; constructor; exact Ha').
    apply wp_bind.
    eapply (wp_mvm_pre R W f1 false V (subv yt 0 k) yp k (csz t)) with (g := C) (h := B); [congruence|congruence|cbn; lia|lia|eapply cbinit_V; exact Hini| | | | | | | |].
    { rewrite subv_subv. exact HC. }
    { apply (vval_subv m yp B 0); [exact HB|lia]. }
    { apply (subv_disj yt); [lia|exact D4]. }
    { rewrite subv_subv. apply disj_subv; [lia|]. apply (subv_disj yt); [lia|exact D1]. }
    { intros a Ha'. apply R1. constructor. exact Ha'. }
    { rewrite subv_subv. apply inv_subv_r; [lia|]. intros a Ha'. right. apply W1, Ha'. }
    { apply inv_subv_w; [lia|exact W2]. }
    intros m2 Hv2 Hk2. assert (K2 : keeps (inv yp) m m2) by (eapply keeps_subv; [|exact Hk2]; lia). cbn [uninit_avector vown subv wp]. apply HQ.
    + intros p Hp. specialize (Hv2 p). rewrite va_subv0 in Hv2. rewrite Hv2 by (cbn; lia). f_equal. rewrite (cbmat_leaf m) by reflexivity. cbn [cb_V]. unfold tr. ring.
    + eapply vval_keeps; [exact HC|exact K2|]. apply disj_subv; [lia|exact D1].
    + eapply valloc_keeps; [exact Ha|exact K2|exact D1].
    + eapply keeps_mono; [|exact K2]. intros a Ha'. right. exact Ha'.
  - remember (s0 :: l0) as l eqn:El. assert (Hln : l <> []) by (subst l; discriminate).
    pose (cb' := CB t k kt kb V E l Z). fold cb' in Hok, Hini, D2, D3, R1, HQ, IH.
    pose proof (cbok_size cb' Hok Hln) as Esz. change (csz t = nsum (length l) (at_ cb_size l)) in Esz.
    pose (W2' := fun a => inv yt a \/ inv yp a). fold W2' in HQ.
    assert (D4 : disj (incb cb') W2') by (intros a Hx [Hy|Hy]; [apply (D2 a Hx Hy)|apply (D3 a Hx Hy)]).
    apply wp_bind. rewrite El. cbv zeta. rewrite <- El. apply wp_bind. unfold sons. rewrite map_length.
    apply (wp_forS (fun i off m1 => off = nsum i (at_ cb_size l) /\ vval m1 (subv yt 0 k) C /\ valloc m1 yt /\ keeps W2' m m1 /\
      vval m1 yp (fun p => if p <? nsum i (at_ cb_size l) then B p + sum k (fun q => cbmat m cb' p q * C q) else B p)%F)).
    + split; [reflexivity|]. split; [exact HC|]. split; [exact Ha|]. split; [apply keeps_refl|]. exact HB.
    + intros i off m1 [_ Hi] (-> & HC1 & Ha1 & K1 & HB1). cbn in Hi. destruct (nth_ex l i Hi) as [s Hsi].
      rewrite (sget_map _ _ _ _ Hsi). cbn [bind fst snd]. destruct (nth_in _ _ _ Hsi) as [_ Hin].
      assert (Hr1 : nsum i (at_ cb_size l) + cb_size s <= csz t) by apply (son_room cb' i s Hok Hsi).
      assert (Hr2 : k + cb_kbranch s <= kb) by apply (cbok_kbranch cb' s Hok Hin).
      destruct (cbok_son cb' s Hok Hin) as (Hoks & E1 & E2). cbn [cb_k cb'] in E2. pose proof (cbok_kbranch_k s Hoks) as Hks.
      assert (DE : disj (inm (cb_E s)) W2') by (intros a Ha'; apply D4; eapply incb_E; eauto).
      assert (D4s : disj (incb s) W2') by (apply (son_disj _ cb' s Hin D4)).
      set (po := nsum i (at_ cb_size l)) in *.
      apply wp_bind, wp_init_sub_avector; [lia|]. apply wp_bind.
      apply wp_clear_avector; [apply valloc_subv; [exact Ha1|lia]|apply inv_subv_w; [lia|exact W1]|].
      intros m2 Hv2 Hk2. apply wp_bind.
      assert (K2 : keeps (inv yt) m1 m2) by (eapply keeps_subv; [|exact Hk2]; lia).
      assert (K2' : keeps W2' m m2) by (eapply keeps_trans; [exact K1|]; eapply keeps_mono; [|exact K2]; intros; left; assumption).
      assert (Ha2 : valloc m2 yt) by (eapply valloc_sub_keeps; [|exact Ha1|exact Hv2|exact Hk2]; lia).
      assert (HC2 : vval m2 (subv yt 0 k) C) by (eapply vval_keeps; [exact HC1|exact Hk2|apply subv_sep; lia]).
      eapply (wp_mvm_pre R W f1 false (cb_E s) (subv yt 0 k) (subv yt k (cb_k s)) k (cb_k s)) with (g := C) (h := fun _ => f0);
        [congruence|congruence|cbn; lia|cbn; lia| | | | | | | | |].
      { eapply mval_keeps; [exact (cbinit_E m cb' s Hini Hin)|exact K2'|exact DE]. }
      { rewrite subv_subv. exact HC2. }
      { rewrite subv_subv, Nat.add_0_r. exact Hv2. }
      { rewrite subv_subv. apply (subv_disj yt); [lia|]. intros a H1 H2. apply (DE a H1). left. exact H2. }
      { rewrite !subv_subv. apply subv_sep. lia. }
      { intros a Ha'. apply R1. eapply incb_E; eauto. }
      { rewrite subv_subv. apply inv_subv_r; [lia|]. intros a Ha'. right. apply W1, Ha'. }
      { rewrite subv_subv. apply inv_subv_w; [lia|exact W1]. }
      intros m3 Hv3 Hk3. rewrite subv_subv, Nat.add_0_r in Hv3, Hk3. cbn [uninit_avector vown subv bind wp].
      assert (K3 : keeps (inv yt) m2 m3) by (eapply keeps_subv; [|exact Hk3]; lia).
      assert (K3' : keeps W2' m m3) by (eapply keeps_trans; [exact K2'|]; eapply keeps_mono; [|exact K3]; intros; left; assumption).
      assert (Ha3 : valloc m3 yt) by (eapply valloc_sub_keeps; [|exact Ha2|exact Hv3|exact Hk3]; lia).
      assert (HC3 : vval m3 (subv yt 0 k) C) by (eapply vval_keeps; [exact HC2|exact Hk3|apply subv_sep; lia]).
      assert (HB3 : vval m3 yp (fun p => if p <? po then B p + sum k (fun q => cbmat m cb' p q * C q) else B p)%F).
      { eapply vval_keeps; [|exact K3|exact Dyt]. eapply vval_keeps; [exact HB1|exact K2|exact Dyt]. }
      apply wp_bind, wp_init_sub_avector; [lia|]. apply wp_bind, wp_init_sub_avector; [lia|]. apply wp_bind.
      eapply (IH s Hin R W (subv yt k (cb_kbranch s)) (subv yp po (cb_size s)) _ (shiftv B po)).
      * exact Hoks.
      * eapply cbinit_keeps; [eapply cbinit_son; [exact Hini|exact Hin]|exact K3'|exact D4s].
      * reflexivity.
      * apply valloc_subv; [exact Ha3|lia].
      * rewrite subv_subv, Nat.add_0_r. exact Hv3.
      * reflexivity.
      * eapply vval_ext; [apply vval_subv; [exact HB3|lia]|]. intros p Hp; cbv beta. destruct (Nat.ltb_spec (po + p) po); [lia|reflexivity].
      * apply disj_subv; [lia|]. apply (subv_disj yt); [lia|exact D1].
      * apply (subv_disj yt); [lia|]. intros a Ha' Hb. apply (D4s a Ha'). left. exact Hb.
      * apply (subv_disj yt); [lia|]. intros a Ha' Hb. apply (D4s a Ha'). right. exact Hb.
      * apply (son_w _ _ cb' s Hin R1).
      * apply inv_subv_w; [lia|exact W1].
      * apply inv_subv_w; [lia|exact W2].
      * intros m4 Hg4 _ Ha4 Hk4. cbn [uninit_avector vown subv bind wp nsum]. rewrite !(at_nth _ _ _ _ Hsi). fold po.
        assert (K4 : keeps W2' m3 m4). { eapply keeps_mono; [|exact Hk4]. intros a [Hb|Hb]; [left|right]; (eapply inv_subv; [|exact Hb]; lia). }
        assert (G1 : forall q, q < kb -> q < k \/ k + cb_kbranch s <= q -> get m4 (va yt q) = get m3 (va yt q)).
        { intros q Hq Hc. apply (proj2 Hk4). intros [Hb|Hb]; [revert Hb; apply notin_subv; lia|].
          apply (D1 (va yt q)); [exists q; split; [lia|reflexivity]|eapply inv_subv; [|exact Hb]; lia]. }
        assert (G2 : forall p, p < csz t -> p < po \/ po + cb_size s <= p -> get m4 (va yp p) = get m3 (va yp p)).
        { intros p Hp Hc. apply (proj2 Hk4). intros [Hb|Hb]; [|revert Hb; apply notin_subv; lia].
          apply (D1 (va yp p)); [eapply inv_subv; [|exact Hb]; lia|exists p; split; [lia|reflexivity]]. }
        split; [reflexivity|]. split; [|split; [|split]].
        -- intros q Hq. cbn in Hq. rewrite va_subv0, G1 by lia. specialize (HC3 q Hq). rewrite va_subv0 in HC3. exact HC3.
        -- intros q Hq. destruct (Nat.lt_ge_cases q k); [rewrite G1 by lia; apply Ha3, Hq|].
           destruct (Nat.lt_ge_cases q (k + cb_kbranch s)); [|rewrite G1 by lia; apply Ha3, Hq].
           specialize (Ha4 (q - k)). rewrite va_subv in Ha4. replace (k + (q - k)) with q in Ha4 by lia. apply Ha4. cbn. lia.
        -- eapply keeps_trans; [exact K3'|exact K4].
        -- intros p Hp. destruct (Nat.lt_ge_cases p po).
           ++ rewrite G2 by lia. rewrite (HB3 p Hp). destruct (Nat.ltb_spec p po), (Nat.ltb_spec p (po + cb_size s)); try lia. reflexivity.
           ++ destruct (Nat.lt_ge_cases p (po + cb_size s)).
              ** destruct (Nat.ltb_spec p (po + cb_size s)); [|lia]. specialize (Hg4 (p - po)). rewrite va_subv in Hg4. cbv beta in Hg4. unfold shiftv in Hg4.
                 replace (po + (p - po)) with p in Hg4 by lia. rewrite Hg4 by (cbn; lia). f_equal. f_equal.
                 pose proof (fun q => cbmat_node m cb' i s (p - po) q Hsi ltac:(lia)) as HT. cbn [cb_son cb'] in HT. fold po in HT.
                 replace (po + (p - po)) with p in HT by lia. change (CB t k kt kb V E l Z) with cb' in HT.
                 rewrite (sum_ext k (fun q => (cbmat m cb' p q * C q)%F) (fun q => sum (cb_k s) (fun r => cbmat m s (p - po)%nat r * mfun m (cb_E s) r q * C q)%F)).
                 2:{ intros q Hq. rewrite HT, <- (sum_mul_r L). reflexivity. }
                 rewrite (sum_swap L). apply sum_ext. intros r Hr. 
                 rewrite (cbmat_son_keeps m m3 cb' s W2' Hin K3' D4 0 0 s (nodes_self s) (p - po) r ltac:(lia) Hr).
                 symmetry. etransitivity; [apply (sum_ext k _ (fun q => cbmat m s (p - po)%nat r * (mfun m (cb_E s) r q * C q))%F); intros; ring|].
                 rewrite (sum_mul_l L). unfold tr. ring.
              ** rewrite G2 by lia. rewrite (HB3 p Hp). destruct (Nat.ltb_spec p po), (Nat.ltb_spec p (po + cb_size s)); try lia. reflexivity.
    + intros off m1 (-> & HC1 & Ha1 & K1 & HB1). cbn [Nat.add] in HB1 |- *. wstep. cbn [uninit_avector vown subv wp]. apply HQ; [|exact HC1|exact Ha1|exact K1].
      eapply vval_ext; [exact HB1|]. intros p Hp; cbv beta. destruct (Nat.ltb_spec p (nsum (length l) (at_ cb_size l))); [reflexivity|lia].
Qed.
End P5.
