(** * Forward transformations: permuted input and separate matrices *)
From Coq Require Import Arith Lia List Bool Ring.
From Verif Require Import Fld Ord Prog Arr View Loop Spec Cluster Block Avector AvectorP Amatrix AmatrixP Hmatrix HmSpec HmP Clusterbasis CbSpec CbP CbP2.
Import ListNotations.

Lemma get_upd_same {K} (m : mem K) a v : get m a <> Free -> get (upd m a v) a = Val v.
Proof. intros H. rewrite get_upd by exact H. destruct (addr_eqb_spec a a); congruence. Qed.
Lemma addr_dec (a b : addr) : {a = b} + {a <> b}.
Proof. destruct (addr_eqb_spec a b); auto. Qed.

Section P3.
Context {K : fops} {G : ofops} (L : ring_laws K).
Add Ring KringCb3 : (rl_ring K L).
Implicit Types (m : mem K) (cb c s : cbasis G) (X Y B : nat -> K).

Lemma inv_subv_w (W : addr -> Prop) x o n : o + n <= vdim x -> wrok W (inv x) -> wrok W (inv (subv x o n)).
Proof. intros H HW a Ha. apply HW. eapply inv_subv; [|exact Ha]. exact H. Qed.
Lemma inv_subv_r (R W : addr -> Prop) x o n : o + n <= vdim x -> rdok R W (inv x) -> rdok R W (inv (subv x o n)).
Proof. intros H HW a Ha. apply HW. eapply inv_subv; [|exact Ha]. exact H. Qed.
Lemma son_w (R W : addr -> Prop) cb s : In s (cb_son cb) -> rdok R W (incb cb) -> rdok R W (incb s).
Proof. intros H HW a Ha. apply HW. eapply incb_son; eauto. Qed.
Lemma son_disj (P : addr -> Prop) cb s : In s (cb_son cb) -> disj (incb cb) P -> disj (incb s) P.
Proof. intros H HW a Ha. apply HW. eapply incb_son; eauto. Qed.
Lemma valloc_sub_keeps m m' x o n f : o + n <= vdim x -> valloc m x -> vval m' (subv x o n) f -> keeps (inv (subv x o n)) m m' -> valloc m' x.
Proof.
  intros Ho Ha Hv Hk i Hi. destruct (Nat.lt_ge_cases i o) as [H|H]; [rewrite (proj2 Hk) by (apply notin_subv; lia); apply Ha, Hi|].
  destruct (Nat.lt_ge_cases i (o + n)) as [H'|H']; [|rewrite (proj2 Hk) by (apply notin_subv; lia); apply Ha, Hi].
  specialize (Hv (i - o)). rewrite va_subv in Hv. replace (o + (i - o)) with i in Hv by lia. rewrite Hv by (cbn; lia). discriminate.
Qed.
Lemma cbmat_son_keeps m m' cb s (W : addr -> Prop) : In s (cb_son cb) -> keeps W m m' -> disj (incb cb) W ->
  forall o r c, In (o, r, c) (cbnodes s) -> forall p q, p < cb_size c -> q < cb_k c -> cbmat m' c p q = cbmat m c p q.
Proof.
  intros Hin Hk Hd o r c Hc p q _ _. eapply cbmat_keeps; [exact Hk|]. intros a Ha. apply Hd. apply (incb_son cb s a Hin). eapply incb_node; eauto.
Qed.
Lemma cbok_tsz cb i s : cbok cb -> nth_error (cb_son cb) i = Some s -> tson_size (K := K) (cb_t cb) i = Ret (cb_size s).
Proof. intros H Hs. unfold tson_size. rewrite (cbok_tson cb i s H Hs). reflexivity. Qed.
Lemma cbok_ktree_node cb : cbok cb -> cb_son cb <> [] -> cb_ktree cb = cb_k cb + nsum (length (cb_son cb)) (at_ cb_ktree (cb_son cb)).
Proof. intros H Hn. rewrite (cbok_ktree cb H). unfold cb_leaf. destruct (cb_son cb); [congruence|reflexivity]. Qed.
Lemma cbok_leaf_inv (t : cptr G) k kt kb V E Z : cbok (CB t k kt kb V E [] Z) -> kt = k + csz t /\ kb = k + csz t /\ mrows V = csz t /\ mcols V = k.
Proof. intros H. inversion H; subst; [auto|congruence]. Qed.

Lemma wp_forward_nop cb : forall R W xp xt X m (Q : unit -> mem K -> Prop),
  cbok cb -> cbinit m cb -> vdim xt = cb_ktree cb -> valloc m xt -> vdim xp = cb_size cb -> vval m xp X ->
  disj (inv xp) (inv xt) -> disj (incb cb) (inv xt) -> rdok R W (incb cb) -> rdok R W (inv xp) -> wrok W (inv xt) ->
  (forall m' Y, vval m' xt Y -> fwd_of (cbmat m) cb X Y -> keeps (inv xt) m m' -> Q tt m') ->
  wp R W (forward_nopermutation_clusterbasis_avector cb xp xt) m Q.
Proof.
  induction cb as [cb IH] using cb_rect'. intros R W x xt X m Q Hok Hini Ex Ha Exp Hs D1 D2 R1 R2 W1 HQ.
  destruct cb as [t k kt kb V E l Z] eqn:Ecb. cbn [forward_nopermutation_clusterbasis_avector].
  assert (Hkk : k <= kt) by exact (cbok_k_ktree _ Hok). change (vdim x = csz t) in Exp.
  cbn [cb_ktree] in Ex. wstep. wstep.
  apply wp_bind, wp_init_sub_avector; [lia|].
  apply wp_bind, wp_clear_avector; [apply valloc_subv; [exact Ha|lia]|apply inv_subv_w; [lia|exact W1]|].
  intros m0 Hc0 Hk0. assert (K0 : keeps (inv xt) m m0) by (eapply keeps_subv; [|exact Hk0]; lia).
  assert (Ha0 : valloc m0 xt) by (eapply valloc_sub_keeps; [|exact Ha|exact Hc0|exact Hk0]; lia).
  destruct l as [|s0 l0].
  - destruct (cbok_leaf_inv _ _ _ _ _ _ _ Hok) as (-> & -> & EV1 & EV2).
    assert (D3 : disj (inm V) (inv xt)) by (intros a Ha'; apply D2; constructor; exact Ha').
    apply wp_bind, wp_bind, wp_init_sub_avector; [lia|].
    apply wp_bind. eapply wp_copy_avector; [eapply vval_keeps; [exact Hs|exact K0|exact D1]|apply valloc_subv; [exact Ha0|lia]|exact Exp|apply (subv_disj x); [lia|exact D1]|exact R2|apply inv_subv_w; [lia|exact W1]|].
    intros m1 Hv1 Hk1. apply wp_bind. change (@addevaltrans_amatrix_avector K f1 V) with (@mvm_amatrix_avector K f1 true V).
    eapply (wp_mvm_pre R W f1 true V (subv xt k (csz t)) (subv xt 0 k) (csz t) k); [congruence|congruence|cbn; lia|cbn; lia| | | | | | | | |].
    { eapply mval_keeps; [eapply cbinit_V; exact Hini|eapply keeps_trans; [exact K0|eapply keeps_subv; [|exact Hk1]; lia]|exact D3]. }
    { rewrite subv_subv, Nat.add_0_r. exact Hv1. }
    { rewrite subv_subv, Nat.add_0_r. eapply vval_keeps; [exact Hc0|exact Hk1|]. apply subv_sep. lia. }
    { rewrite subv_subv. apply (subv_disj x); [lia|exact D3]. }
    { rewrite !subv_subv. apply subv_sep. lia. }
    { intros a Ha'. apply R1. constructor. exact Ha'. }
    { rewrite subv_subv. intros a Ha'. right. apply W1. eapply inv_subv; [|exact Ha']. lia. }
    { rewrite subv_subv. intros a Ha'. apply W1. eapply inv_subv; [|exact Ha']. lia. }
    intros m2 Hv2 Hk2. rewrite subv_subv, Nat.add_0_l in Hv2, Hk2. cbn [uninit_avector vown subv wp].
    apply (HQ m2 (fun o => if o <? k then sum (csz t) (fun p => fconj (mfun m V p o) * X p)%F else X (o - k))).
    + intros o Ho. destruct (Nat.ltb_spec o k).
      * specialize (Hv2 o). rewrite va_subv0 in Hv2. rewrite Hv2 by (cbn; lia). f_equal. cbn [tr]. unfold tr. ring.
      * rewrite (proj2 Hk2) by (apply notin_subv; lia). specialize (Hv1 (o - k)). rewrite va_subv in Hv1.
        replace (k + (o - k)) with o in Hv1 by lia. apply Hv1. cbn. lia.
    + apply fwd_leaf; [exact Hok|reflexivity| |]; unfold cb_size; cbn [cb_k cb_V cb_t].
      * intros q Hq. apply Nat.ltb_lt in Hq. rewrite Hq. reflexivity.
      * intros p Hp. destruct (Nat.ltb_spec (k + p) k); [lia|]. f_equal. lia.
    + eapply keeps_trans; [exact K0|]. eapply keeps_trans; [eapply keeps_subv; [|exact Hk1]; lia|eapply keeps_subv; [|exact Hk2]; lia].
  - remember (s0 :: l0) as l eqn:El. assert (Hln : l <> []) by (subst l; discriminate).
    pose (cb' := CB t k kt kb V E l Z). fold cb' in Hok, Hini, D2, R1, HQ, IH.
    pose proof (cbok_size cb' Hok Hln) as Esz. change (csz t = nsum (length l) (at_ cb_size l)) in Esz.
    pose proof (cbok_ktree_node cb' Hok Hln) as Ekt. change (kt = k + nsum (length l) (at_ cb_ktree l)) in Ekt.
    apply wp_bind. rewrite El. cbv zeta. rewrite <- El. apply wp_bind. unfold sons. rewrite map_length.
    apply (wp_forS (fun i offs m1 => offs = (nsum i (at_ cb_size l), k + nsum i (at_ cb_ktree l)) /\ fwd_inv m m1 cb' (va xt) X i /\ keeps (inv xt) m m1 /\ valloc m1 xt)).
    + split; [cbn [nsum]; rewrite Nat.add_0_r; reflexivity|]. split; [|split; [exact K0|exact Ha0]]. apply fwd_inv_0. intros o Ho. specialize (Hc0 o). rewrite va_subv0 in Hc0. apply Hc0. exact Ho.
    + intros i offs m1 [_ Hi] (-> & HI & K1 & Ha1). cbn in Hi. destruct (nth_ex l i Hi) as [s Hsi].
      rewrite (sget_map _ _ _ _ Hsi). cbn [bind fst snd]. destruct (nth_in _ _ _ Hsi) as [_ Hin].
      assert (Hr1 : nsum i (at_ cb_size l) + cb_size s <= csz t) by apply (son_room cb' i s Hok Hsi).
      assert (Hr2 : k + nsum i (at_ cb_ktree l) + cb_ktree s <= kt) by apply (son_room cb' i s Hok Hsi).
      destruct (cbok_son cb' s Hok Hin) as (Hoks & _ & _).
      rewrite (cbok_tsz cb' i s Hok Hsi : tson_size t i = _). cbn [bind].
      apply wp_bind, wp_init_sub_avector; [lia|]. apply wp_bind, wp_init_sub_avector; [lia|]. apply wp_bind.
      eapply (IH s Hin R W (subv x (nsum i (at_ cb_size l)) (cb_size s)) (subv xt (k + nsum i (at_ cb_ktree l)) (cb_ktree s)) (shiftv X (nsum i (at_ cb_size l)))).
      * exact Hoks.
      * eapply cbinit_keeps; [eapply cbinit_son; [exact Hini|exact Hin]|exact K1|]. apply (son_disj _ cb' s Hin D2).
      * reflexivity.
      * apply valloc_subv; [exact Ha1|lia].
      * reflexivity.
      * apply vval_subv; [|lia]. eapply vval_keeps; [exact Hs|exact K1|exact D1].
      * apply disj_subv; [lia|]. apply (subv_disj x); [lia|exact D1].
      * apply (subv_disj x); [lia|]. apply (son_disj _ cb' s Hin D2).
      * apply (son_w _ _ cb' s Hin R1).
      * apply inv_subv_r; [lia|exact R2].
      * apply inv_subv_w; [lia|exact W1].
      * intros m2 Ys HYs HFs Hk2. cbn [uninit_avector vown subv bind wp].
        apply wp_bind, wp_init_sub_avector; [pose proof (cbok_k_ktree s Hoks); lia|]. apply wp_bind.
        assert (K2 : keeps (inv xt) m m2) by (eapply keeps_trans; [exact K1|eapply keeps_subv; [|exact Hk2]; lia]).
        change (@addevaltrans_amatrix_avector K f1 (cb_E s)) with (@mvm_amatrix_avector K f1 true (cb_E s)).
        eapply (wp_forward_son L cb' i s R W _ _ xt X m m1 m2 Ys); [exact Hok|exact Hsi|exact Ex|exact Hini|exact D2|exact K2|exact HI|reflexivity| |exact HYs|exact Hk2| |exact R1|exact W1|].
        -- exists (cb_k s). split; [reflexivity|]. pose proof (cbok_k_ktree s Hoks). lia.
        -- eapply fwd_of_ext; [exact Hoks|exact HFs| |reflexivity|reflexivity]. apply (cbmat_son_keeps m m1 cb' s (inv xt) Hin K1 D2).
        -- intros m3 HI3 Hk3. cbn [uninit_avector vown subv bind wp nsum]. rewrite !(at_nth _ _ _ _ Hsi).
           split; [f_equal; lia|]. split; [exact HI3|].
           assert (Ha2 : valloc m2 xt) by (eapply valloc_sub_keeps; [|exact Ha1|exact HYs|exact Hk2]; lia).
           split; [eapply keeps_trans; [exact K2|eapply keeps_subv; [|exact Hk3]; cbn; lia]|].
           intros q Hq. destruct (Nat.lt_ge_cases q k) as [Hlt|Hge].
           ++ destruct HI3 as (Y3 & B1 & _). rewrite (B1 q) by (cbn [cb_k cb']; lia). discriminate.
           ++ rewrite (proj2 Hk3) by (apply notin_subv; cbn; lia). apply Ha2, Hq.
    + intros offs m1 (-> & HI & K1 & Ha1). cbn [Nat.add fst snd] in HI |- *. wstep. wstep. cbn [uninit_avector vown subv wp].
      destruct (fwd_inv_end L m m1 cb' (va xt) X Hok Hln HI) as (Y & HY & HF). eapply HQ; [|exact HF|exact K1].
      intros o Ho. apply HY. cbn. lia.
Qed.

(** ** Separate matrices for all clusters *)
Lemma vsok_son cb i s : vsok cb -> nth_error (cb_son cb) i = Some s -> vsok s.
Proof. intros H Hs o r c Hc. eapply H, nodes_son; eauto. Qed.
Lemma vsok_self cb : vsok cb -> mrows (cb_V cb) = cb_size cb /\ mcols (cb_V cb) = cb_k cb.
Proof. intros H. apply (H 0 0 cb (nodes_self cb)). Qed.
Lemma invs_node s : forall o r c a, In (o, r, c) (cbnodes s) -> inm (cb_V c) a -> invs s a.
Proof.
  induction s as [s IH] using cb_rect'. intros o r c a Hc Ha.
  apply in_nodes in Hc as [(_ & _ & ->)|(j & s' & o' & r' & Hs' & Hc & _)]; [constructor; exact Ha|].
  destruct (nth_in _ _ _ Hs') as [_ Hin]. apply (invs_son s s' a Hin). eapply IH; eauto.
Qed.
Local Notation MV m := (fun c => mfun m (cb_V c)).

Lemma wp_forward_not idx cb : forall R W x xt xp ip X m (Q : unit -> mem K -> Prop),
  cbok cb -> vsok cb -> cbplaced cb -> vsinit m cb -> vdim xt = cb_ktree cb -> valloc m xt -> vdim xp = cb_size cb -> valloc m xp ->
  perm_src idx m x (cb_off cb) (cb_size cb) ip X ->
  disj (inv x) (inv xt) -> disj (inv x) (inv xp) -> disj (inv xp) (inv xt) -> disj (invs cb) (inv xt) -> disj (invs cb) (inv xp) ->
  rdok R W (invs cb) -> rdok R W (inv x) -> wrok W (inv xt) -> wrok W (inv xp) ->
  (forall m' Y, vval m' xt Y -> vval m' xp X -> fwd_of (MV m) cb X Y -> keeps (fun a => inv xt a \/ inv xp a) m m' -> Q tt m') ->
  wp R W (forward_notransfer idx cb x xt xp) m Q.
Proof.
  induction cb as [cb IH] using cb_rect'. intros R W x xt xp ip X m Q Hok Hvs Hpl Hini Ex Ha Exp Hap Hs D1 D1' Dp D2 D2' R1 R2 W1 W2 HQ.
  destruct cb as [t k kt kb V E l Z] eqn:Ecb. cbn [forward_notransfer].
  assert (Hkk : k <= kt) by exact (cbok_k_ktree _ Hok). change (vdim xp = csz t) in Exp.
  destruct (vsok_self _ Hvs) as [EV1 EV2]. change (mrows V = csz t) in EV1. change (mcols V = k) in EV2.
  cbn [cb_ktree] in Ex. wstep. wstep.
  apply wp_bind, wp_init_sub_avector; [lia|].
  apply wp_bind, wp_clear_avector; [apply valloc_subv; [exact Ha|lia]|apply inv_subv_w; [lia|exact W1]|].
  intros m0 Hc0 Hk0. assert (K0 : keeps (inv xt) m m0) by (eapply keeps_subv; [|exact Hk0]; lia).
  assert (Ha0 : valloc m0 xt) by (eapply valloc_sub_keeps; [|exact Ha|exact Hc0|exact Hk0]; lia).
  assert (Hap0 : valloc m0 xp) by (eapply valloc_keeps; [exact Hap|exact K0|exact Dp]).
  pose (W2' := fun a => inv xt a \/ inv xp a).
  assert (K0' : keeps W2' m m0) by (eapply keeps_mono; [|exact K0]; intros; left; assumption).
  assert (D3 : disj (inv x) W2') by (intros a Hx [Hy|Hy]; [apply (D1 a Hx Hy)|apply (D1' a Hx Hy)]).
  assert (D4 : disj (invs (CB t k kt kb V E l Z)) W2') by (intros a Hx [Hy|Hy]; [apply (D2 a Hx Hy)|apply (D2' a Hx Hy)]).
  assert (DV : disj (inm V) W2') by (intros a Hx; apply D4; constructor; exact Hx).
  (* the state before the final multiplication *)
  assert (HF : forall m1 Y, (forall o, k <= o < kt -> get m1 (va xt o) = Val (Y o)) -> (forall o, o < k -> get m1 (va xt o) = Val (f0 : K)) ->
    vval m1 xp X -> keeps W2' m m1 -> (forall Y', (forall o, k <= o < kt -> Y' o = Y o) -> (forall q, q < k -> Y' q = sum (csz t) (fun p => fconj (mfun m V p q) * X p)%F) ->
       fwd_of (MV m) (CB t k kt kb V E l Z) X Y') ->
    wp R W (mvm_amatrix_avector f1 true V xp (subv xt 0 k) ;;; uninit_avector (subv xt 0 k)) m1 Q).
  { intros m1 Y HY H0 Hxp Hk1 HF. apply wp_bind.
    eapply (wp_mvm_pre R W f1 true V xp (subv xt 0 k) (csz t) k); [congruence|congruence|lia|cbn; lia| | | | | | | | |].
    { eapply mval_keeps; [apply mval_mfun; intros a Ha'; apply Hini; constructor; exact Ha'|exact Hk1|exact DV]. }
    { intros i Hi. rewrite va_subv0. apply Hxp. cbn in Hi. lia. }
    { rewrite subv_subv. intros i Hi. rewrite va_subv0. apply H0. exact Hi. }
    { rewrite subv_subv. apply (subv_disj x); [lia|]. intros a Ha' Hb. apply (DV a Ha'). left. exact Hb. }
    { rewrite subv_subv. apply (subv_disj x); [lia|]. apply disj_subv; [lia|exact Dp]. }
    { intros a Ha'. apply R1. constructor. exact Ha'. }
    { apply inv_subv_r; [lia|]. intros a Ha'. right. apply W2, Ha'. }
    { rewrite subv_subv. apply inv_subv_w; [lia|exact W1]. }
    intros m2 Hv2 Hk2. rewrite subv_subv, Nat.add_0_l in Hv2, Hk2. cbn [uninit_avector vown subv wp].
    apply (HQ m2 (fun o => if o <? k then sum (csz t) (fun p => fconj (mfun m V p o) * X p)%F else Y o)).
    - intros o Ho. destruct (Nat.ltb_spec o k).
      + specialize (Hv2 o). rewrite va_subv0 in Hv2. rewrite Hv2 by (cbn; lia). f_equal. cbn [tr]. unfold tr. ring.
      + rewrite (proj2 Hk2) by (apply notin_subv; lia). apply HY. lia.
    - eapply vval_keeps; [exact Hxp|exact Hk2|]. apply (subv_disj x); [lia|exact Dp].
    - apply HF.
      + intros o Ho. destruct (Nat.ltb_spec o k); [lia|reflexivity].
      + intros q Hq. apply Nat.ltb_lt in Hq. rewrite Hq. reflexivity.
    - eapply keeps_trans; [exact Hk1|]. eapply keeps_mono; [|eapply keeps_subv; [|exact Hk2]; lia]. intros; left; assumption. }
  destruct l as [|s0 l0].
  - destruct (cbok_leaf_inv _ _ _ _ _ _ _ Hok) as (-> & -> & _ & _). clear IH.
    apply wp_bind, wp_bind, wp_init_sub_avector; [lia|].
    apply (wp_for (fun i m1 => keeps W2' m m1 /\ valloc m1 xt /\ valloc m1 xp /\ (forall o, o < k -> get m1 (va xt o) = Val (f0 : K)) /\
      forall p, p < i -> get m1 (va xp p) = Val (X p) /\ get m1 (va xt (k + p)) = Val (X p))).
    + split; [exact K0'|]. split; [exact Ha0|]. split; [exact Hap0|]. split; [|intros; lia].
      intros o Ho. specialize (Hc0 o). rewrite va_subv0 in Hc0. apply Hc0. exact Ho.
    + intros i m1 [_ Hi] (K1 & A1 & A2 & A3 & A4). cbn in Hi.
      destruct (perm_src_keeps _ _ _ _ _ _ _ _ _ Hs K1 D3 i Hi) as (B1 & B2 & B3).
      apply wp_bind, wp_lift. change (c_off (cp_c t) + i) with (cb_off (CB t k (k + csz t) (k + csz t) V E [] Z) + i). rewrite B1. cbn [rok]. wstep.
      apply wp_bind. eapply wp_pload; [exact B3|apply R2; exists (ip i); auto|].
      apply wp_bind. apply wp_pstore; [apply A2; lia|apply W2; exists i; split; [lia|reflexivity]|].
      apply wp_bind. eapply wp_pload; [apply get_upd_same; apply A2; lia|right; apply W2; exists i; split; [lia|reflexivity]|].
      assert (Ne : forall o p, o < vdim xt -> p < vdim xp -> va xp p <> va xt o).
      { intros o p Ho Hp Eq. apply (Dp (va xp p)); [exists p; auto|]. rewrite Eq. exists o. auto. }
      assert (Ne2 : forall o p, o < vdim xt -> p < vdim xp -> va xt o <> va xp p) by (intros o p Ho Hp Eq; apply (Ne o p Ho Hp); congruence).
      unfold vstore. rewrite va_subv. apply wp_pstore.
      { rewrite get_upd_other by (apply Ne2; lia). apply A1. lia. }
      { apply W1. exists (k + i). split; [lia|reflexivity]. }
      set (mm := upd (upd m1 (va xp i) (X i)) (va xt (k + i)) (X i)).
      assert (G1 : get mm (va xt (k + i)) = Val (X i)) by (apply get_upd_same; rewrite get_upd_other by (apply Ne2; lia); apply A1; lia).
      assert (G2 : get mm (va xp i) = Val (X i)) by (unfold mm; rewrite get_upd_other by (apply Ne; lia); apply get_upd_same, A2; lia).
      assert (G3 : forall a, a <> va xt (k + i) -> a <> va xp i -> get mm a = get m1 a) by (intros a H1 H2; unfold mm; rewrite !get_upd_other; auto).
      assert (G4 : forall o, o < vdim xt -> o <> k + i -> get mm (va xt o) = get m1 (va xt o)).
      { intros o Ho Hn. apply G3; [intros Eq; apply va_inj in Eq; lia|apply Ne2; lia]. }
      assert (G5 : forall p, p < vdim xp -> p <> i -> get mm (va xp p) = get m1 (va xp p)).
      { intros p Hp Hn. apply G3; [apply Ne; lia|intros Eq; apply va_inj in Eq; lia]. }
      split; [|split; [|split; [|split]]].
      * eapply keeps_trans; [exact K1|]. eapply keeps_trans; [apply keeps_upd; right; exists i; split; [lia|reflexivity]|apply keeps_upd; left; exists (k + i); split; [lia|reflexivity]].
      * intros o Ho. destruct (Nat.eq_dec o (k + i)) as [->|Hn]; [rewrite G1; discriminate|rewrite G4 by assumption; apply A1, Ho].
      * intros o Ho. destruct (Nat.eq_dec o i) as [->|Hn]; [rewrite G2; discriminate|rewrite G5 by assumption; apply A2, Ho].
      * intros o Ho. rewrite G4 by lia. apply A3, Ho.
      * intros p Hp. destruct (Nat.eq_dec p i) as [->|Hne]; [auto|]. rewrite G4, G5 by lia. apply A4. lia.
    + intros m1 (K1 & A1 & A2 & A3 & A4). cbn [Nat.add] in A4.
      apply (HF m1 (fun o => X (o - k))).
      * intros o Ho. replace o with (k + (o - k)) at 1 by lia. apply A4. lia.
      * exact A3.
      * intros p Hp. apply A4. lia.
      * exact K1.
      * intros Y' HY1 HY2. apply fwd_of_intro; [exact Hok|exact HY2| |].
        -- intros _ p Hp. change (p < csz t) in Hp. cbn [cb_k]. rewrite HY1 by lia. f_equal. lia.
        -- intros [|i] s Hn; discriminate.
  - remember (s0 :: l0) as l eqn:El. assert (Hln : l <> []) by (subst l; discriminate).
    pose (cb' := CB t k kt kb V E l Z). fold cb' in Hok, Hini, D2, D2', D4, R1, HQ, IH, Hvs, Hpl, HF, Hs.
    pose proof (cbok_size cb' Hok Hln) as Esz. change (csz t = nsum (length l) (at_ cb_size l)) in Esz.
    pose proof (cbok_ktree_node cb' Hok Hln) as Ekt. change (kt = k + nsum (length l) (at_ cb_ktree l)) in Ekt.
    apply wp_bind. rewrite El. cbv zeta. rewrite <- El. apply wp_bind. unfold sons. rewrite map_length.
    apply (wp_forS (fun i offs m1 => offs = (k + nsum i (at_ cb_ktree l), nsum i (at_ cb_size l)) /\ keeps W2' m m1 /\ valloc m1 xt /\ valloc m1 xp /\
      (forall o, o < k -> get m1 (va xt o) = Val (f0 : K)) /\ (forall p, p < nsum i (at_ cb_size l) -> get m1 (va xp p) = Val (X p)) /\
      exists Y, (forall o, k <= o < k + nsum i (at_ cb_ktree l) -> get m1 (va xt o) = Val (Y o)) /\
        (forall j s, j < i -> nth_error l j = Some s -> fwd_of (MV m) s (shiftv X (nsum j (at_ cb_size l))) (shiftv Y (k + nsum j (at_ cb_ktree l)))))).
    + split; [cbn [nsum]; rewrite Nat.add_0_r; reflexivity|]. split; [exact K0'|]. split; [exact Ha0|]. split; [exact Hap0|]. split.
      { intros o Ho. specialize (Hc0 o). rewrite va_subv0 in Hc0. apply Hc0. exact Ho. }
      split; [cbn; intros; lia|]. exists (fun _ => f0). split; [cbn [nsum]; intros; lia|intros; lia].
    + intros i offs m1 [_ Hi] (-> & K1 & Ha1 & Hap1 & HZ & HX & Y & HY1 & HY2). cbn in Hi. destruct (nth_ex l i Hi) as [s Hsi].
      rewrite (sget_map _ _ _ _ Hsi). cbn [bind fst snd]. destruct (nth_in _ _ _ Hsi) as [_ Hin].
      assert (Hr1 : nsum i (at_ cb_size l) + cb_size s <= csz t) by apply (son_room cb' i s Hok Hsi).
      assert (Hr2 : k + nsum i (at_ cb_ktree l) + cb_ktree s <= kt) by apply (son_room cb' i s Hok Hsi).
      destruct (cbok_son cb' s Hok Hin) as (Hoks & _ & _). destruct (placed_son cb' i s Hpl Hsi) as [Eo Hpls].
      assert (D4s : disj (invs s) W2') by (intros a Ha'; apply D4; eapply invs_son; eauto).
      apply wp_bind, wp_init_sub_avector; [lia|]. apply wp_bind, wp_init_sub_avector; [lia|]. apply wp_bind.
      eapply (IH s Hin R W x (subv xt (k + nsum i (at_ cb_ktree l)) (cb_ktree s)) (subv xp (nsum i (at_ cb_size l)) (cb_size s)) (fun p => ip (nsum i (at_ cb_size l) + p)) (shiftv X (nsum i (at_ cb_size l)))).
      * exact Hoks.
      * eapply vsok_son; [exact Hvs|exact Hsi].
      * exact Hpls.
      * intros a Ha'. destruct (Hini a) as [v Hv]; [eapply invs_son; eauto|]. exists v. rewrite (proj2 K1); [exact Hv|]. intros Hw; exact (D4s a Ha' Hw).
      * reflexivity.
      * apply valloc_subv; [exact Ha1|lia].
      * reflexivity.
      * apply valloc_subv; [exact Hap1|lia].
      * intros p Hp. rewrite Eo. destruct (perm_src_keeps _ _ _ _ _ _ _ _ _ Hs K1 D3 (nsum i (at_ cb_size l) + p)) as (B1 & B2 & B3); [change (cb_size cb') with (csz t); lia|].
        cbn [cb_son cb']. rewrite <- Nat.add_assoc. auto.
      * apply (subv_disj x); [lia|exact D1].
      * apply (subv_disj x); [lia|exact D1'].
      * apply disj_subv; [lia|]. apply (subv_disj x); [lia|exact Dp].
      * apply (subv_disj x); [lia|]. intros a Ha' Hb. apply (D4s a Ha'). left. exact Hb.
      * apply (subv_disj x); [lia|]. intros a Ha' Hb. apply (D4s a Ha'). right. exact Hb.
      * intros a Ha'. apply R1. eapply invs_son; eauto.
      * exact R2.
      * apply inv_subv_w; [lia|exact W1].
      * apply inv_subv_w; [lia|exact W2].
      * intros m2 Ys HYs HXs HFs Hk2. cbn [uninit_avector vown subv bind wp nsum]. rewrite !(at_nth _ _ _ _ Hsi).
        set (off := k + nsum i (at_ cb_ktree l)) in *. set (po := nsum i (at_ cb_size l)) in *.
        assert (G1 : forall o, o < off \/ off + cb_ktree s <= o -> o < kt -> get m2 (va xt o) = get m1 (va xt o)).
        { intros o Ho Ho'. apply (proj2 Hk2). intros [Hb|Hb]; [revert Hb; apply notin_subv; lia|].
          apply (Dp (va xt o)); [eapply inv_subv; [|exact Hb]; lia|exists o; split; [lia|reflexivity]]. }
        assert (G2 : forall p, p < po \/ po + cb_size s <= p -> p < csz t -> get m2 (va xp p) = get m1 (va xp p)).
        { intros o Ho Ho'. apply (proj2 Hk2). intros [Hb|Hb]; [|revert Hb; apply notin_subv; lia].
          apply (Dp (va xp o)); [exists o; split; [lia|reflexivity]|eapply inv_subv; [|exact Hb]; lia]. }
        assert (G3 : forall o, o < cb_ktree s -> get m2 (va xt (off + o)) = Val (Ys o)) by (intros o Ho; specialize (HYs o Ho); rewrite va_subv in HYs; exact HYs).
        assert (G4 : forall p, p < cb_size s -> get m2 (va xp (po + p)) = Val (X (po + p)%nat)) by (intros o Ho; specialize (HXs o Ho); rewrite va_subv in HXs; exact HXs).
        split; [unfold off; f_equal; lia|]. split; [|split; [|split; [|split; [|split]]]].
        -- eapply keeps_trans; [exact K1|]. eapply keeps_mono; [|exact Hk2]. intros a [Hb|Hb]; [left|right]; (eapply inv_subv; [|exact Hb]; lia).
        -- intros o Ho. destruct (Nat.lt_ge_cases o off); [rewrite G1 by lia; apply Ha1, Ho|].
           destruct (Nat.lt_ge_cases o (off + cb_ktree s)); [|rewrite G1 by lia; apply Ha1, Ho].
           replace o with (off + (o - off)) by lia. rewrite G3 by lia. discriminate.
        -- intros o Ho. destruct (Nat.lt_ge_cases o po); [rewrite G2 by lia; apply Hap1, Ho|].
           destruct (Nat.lt_ge_cases o (po + cb_size s)); [|rewrite G2 by lia; apply Hap1, Ho].
           replace o with (po + (o - po)) by lia. rewrite G4 by lia. discriminate.
        -- intros o Ho. rewrite G1 by lia. apply HZ, Ho.
        -- intros p Hp. destruct (Nat.lt_ge_cases p po); [rewrite G2 by lia; apply HX; assumption|].
           replace p with (po + (p - po)) by lia. apply G4. lia.
        -- exists (fun o => if o <? off then Y o else Ys (o - off)). split.
           ++ intros o Ho. destruct (Nat.ltb_spec o off); [rewrite G1 by lia; apply HY1; lia|].
              replace o with (off + (o - off)) at 1 by lia. apply G3. lia.
           ++ intros j s' Hj Hs'. destruct (Nat.eq_dec j i) as [->|Hne].
              ** rewrite Hsi in Hs'. injection Hs' as <-. eapply fwd_of_ext; [exact Hoks|exact HFs| |reflexivity|].
                 { intros o r c Hc p q _ _. eapply mfun_keeps; [exact K1|]. intros a Ha'. apply D4s. eapply invs_node; eauto. }
                 { intros q Hq. unfold shiftv. fold off. destruct (Nat.ltb_spec (off + q) off); [lia|]. f_equal. lia. }
              ** eapply fwd_of_ext; [apply (cbok_son cb' s' Hok (proj2 (nth_in _ _ _ Hs')))|apply (HY2 j s'); [lia|exact Hs']|reflexivity|reflexivity|].
                 intros q Hq. unfold shiftv. pose proof (nsum_in (at_ cb_ktree l) j i ltac:(lia)) as B. rewrite (at_nth _ _ _ _ Hs') in B.
                 destruct (Nat.ltb_spec (k + nsum j (at_ cb_ktree l) + q) off); [reflexivity|unfold off in *; lia].
    + intros offs m1 (-> & K1 & Ha1 & Hap1 & HZ & HX & Y & HY1 & HY2). cbn [Nat.add fst snd] in *. wstep. wstep.
      apply (HF m1 Y); [rewrite Ekt; exact HY1|exact HZ|intros p Hp; apply HX; lia|exact K1|].
      intros Y' B1 B2. apply fwd_of_intro; [exact Hok|exact B2| |].
      * intros Hlf. exfalso. cbn in Hlf. destruct l; [congruence|discriminate].
      * intros i s Hsi. eapply fwd_of_ext; [apply (cbok_son cb' s Hok (proj2 (nth_in _ _ _ Hsi)))|apply (HY2 i s); [apply (nth_in _ _ _ Hsi)|exact Hsi]|reflexivity|reflexivity|].
        assert (Hr2 : k + nsum i (at_ cb_ktree l) + cb_ktree s <= kt) by apply (son_room cb' i s Hok Hsi).
        intros q Hq. unfold shiftv. symmetry. cbn [cb_son cb_k cb']. apply B1. lia.
Qed.
End P3.
