(** * Backward transformations *)
From Coq Require Import Arith Lia List Bool Ring.
From Verif Require Import Fld Ord Prog Arr View Loop Spec Cluster Block Avector AvectorP Amatrix AmatrixP Hmatrix HmSpec HmP Clusterbasis CbSpec CbP CbP2 CbP3.
Import ListNotations.

Section P4.
Context {K : fops} {G : ofops} (L : ring_laws K).
Add Ring KringCb4 : (rl_ring K L).
Implicit Types (m : mem K) (cb c s : cbasis G) (X Y B : nat -> K).

(** ** Invariant of the loop over the sons *)
Definition bwd_inv (M : cbasis G -> nat -> nat -> K) m cb (yt out : nat -> addr) Y B (i : nat) : Prop :=
  (forall o, o < cb_k cb -> get m (yt o) = Val (Y o)) /\
  (forall o, cb_k cb + nsum i (at_ cb_ktree (cb_son cb)) <= o < cb_ktree cb -> get m (yt o) = Val (Y o)) /\
  (forall o, o < cb_ktree cb -> exists v, get m (yt o) = Val v) /\
  (forall p, p < nsum i (at_ cb_size (cb_son cb)) -> get m (out p) = Val (B p + bwd_of M cb Y p)%F) /\
  (forall p, nsum i (at_ cb_size (cb_son cb)) <= p < cb_size cb -> get m (out p) = Val (B p)).

Lemma bwd_inv_0 M m cb yt out Y B : (forall o, o < cb_ktree cb -> get m (yt o) = Val (Y o)) -> cb_k cb <= cb_ktree cb ->
  (forall p, p < cb_size cb -> get m (out p) = Val (B p)) -> bwd_inv M m cb yt out Y B 0.
Proof.
  intros H1 H2 H3. split; [|split; [|split; [|split]]]; cbn [nsum].
  - intros; apply H1; lia.
  - intros; apply H1; lia.
  - intros o Ho. eexists. apply H1, Ho.
  - intros; lia.
  - intros; apply H3; lia.
Qed.

(** The son [i] may change its coefficients and its part of the output. *)
Lemma bwd_inv_step M m1 m3 cb yt out Y B i s : cbok cb -> bwd_inv M m1 cb yt out Y B i -> nth_error (cb_son cb) i = Some s ->
  (forall o, o < cb_ktree cb -> o < cb_k cb + nsum i (at_ cb_ktree (cb_son cb)) \/ cb_k cb + nsum i (at_ cb_ktree (cb_son cb)) + cb_ktree s <= o ->
     get m3 (yt o) = get m1 (yt o)) ->
  (forall o, o < cb_ktree s -> exists v, get m3 (yt (cb_k cb + nsum i (at_ cb_ktree (cb_son cb)) + o)) = Val v) ->
  (forall p, p < cb_size cb -> p < nsum i (at_ cb_size (cb_son cb)) \/ nsum i (at_ cb_size (cb_son cb)) + cb_size s <= p -> get m3 (out p) = get m1 (out p)) ->
  (forall p, p < cb_size s -> get m3 (out (nsum i (at_ cb_size (cb_son cb)) + p)) =
     Val (B (nsum i (at_ cb_size (cb_son cb)) + p)%nat + bwd_of M cb Y (nsum i (at_ cb_size (cb_son cb)) + p))%F) ->
  bwd_inv M m3 cb yt out Y B (S i).
Proof.
  intros Hok (A1 & A2 & A3 & A4 & A5) Hs H1 H2 H3 H4. destruct (son_room cb i s Hok Hs) as [Hr1 Hr2].
  unfold bwd_inv. cbn [nsum]. rewrite !(at_nth _ _ _ _ Hs). split; [|split; [|split; [|split]]].
  - intros o Ho. rewrite H1 by lia. apply A1, Ho.
  - intros o Ho. rewrite H1 by lia. apply A2. lia.
  - intros o Ho. destruct (Nat.lt_ge_cases o (cb_k cb + nsum i (at_ cb_ktree (cb_son cb)))); [rewrite H1 by lia; apply A3, Ho|].
    destruct (Nat.lt_ge_cases o (cb_k cb + nsum i (at_ cb_ktree (cb_son cb)) + cb_ktree s)); [|rewrite H1 by lia; apply A3, Ho].
    destruct (H2 (o - (cb_k cb + nsum i (at_ cb_ktree (cb_son cb))))) as [v Hv]; [lia|]. exists v. rewrite <- Hv. f_equal. f_equal. lia.
  - intros p Hp. destruct (Nat.lt_ge_cases p (nsum i (at_ cb_size (cb_son cb)))); [rewrite H3 by lia; apply A4; assumption|].
    replace p with (nsum i (at_ cb_size (cb_son cb)) + (p - nsum i (at_ cb_size (cb_son cb)))) by lia. apply H4. lia.
  - intros p Hp. rewrite H3 by lia. apply A5. lia.
Qed.

(** Coefficients of a son with those of its father added *)
Definition trans_coef m cb i s Y (o : nat) : K :=
  if o <? cb_k s then (Y (cb_k cb + nsum i (at_ cb_ktree (cb_son cb)) + o)%nat + sum (cb_k cb) (fun q => mfun m (cb_E s) o q * Y q))%F
  else Y (cb_k cb + nsum i (at_ cb_ktree (cb_son cb)) + o)%nat.

Lemma wp_backward_son cb i s R W (yc yt1 yt : vec) Y m0 m1 (Q : unit -> mem K -> Prop) :
  cbok cb -> nth_error (cb_son cb) i = Some s -> vdim yt = cb_ktree cb -> mval m1 (cb_E s) (mfun m0 (cb_E s)) -> disj (inm (cb_E s)) (inv yt) ->
  (forall o, o < cb_k cb -> get m1 (va yt o) = Val (Y o)) ->
  (forall o, o < cb_ktree s -> get m1 (va yt (cb_k cb + nsum i (at_ cb_ktree (cb_son cb)) + o)) = Val (Y (cb_k cb + nsum i (at_ cb_ktree (cb_son cb)) + o)%nat)) ->
  yc = subv yt 0 (cb_k cb) -> (exists n, yt1 = subv yt (cb_k cb + nsum i (at_ cb_ktree (cb_son cb))) n /\ cb_k s <= n <= cb_ktree s) ->
  rdok R W (inm (cb_E s)) -> rdok R W (inv (subv yt 0 (cb_k cb))) -> wrok W (inv (subv yt (cb_k cb + nsum i (at_ cb_ktree (cb_son cb))) (cb_ktree s))) ->
  (forall m2, vval m2 (subv yt (cb_k cb + nsum i (at_ cb_ktree (cb_son cb))) (cb_ktree s)) (trans_coef m0 cb i s Y) ->
     keeps (inv (subv yt (cb_k cb + nsum i (at_ cb_ktree (cb_son cb))) (cb_ktree s))) m1 m2 -> Q tt m2) ->
  wp R W (mvm_amatrix_avector f1 false (cb_E s) yc yt1) m1 Q.
Proof.
  intros Hok Hs Ex HE DE A1 A2 -> (n & -> & Hn) R1 R2 W1 HQ. set (off := cb_k cb + nsum i (at_ cb_ktree (cb_son cb))) in *.
  destruct (nth_in _ _ _ Hs) as [Hi Hin]. destruct (cbok_son cb s Hok Hin) as (Hoks & E1 & E2).
  destruct (son_room cb i s Hok Hs) as [_ Hroom]. fold off in Hroom. pose proof (cbok_k_ktree s Hoks) as Hks.
  eapply (wp_mvm_pre R W f1 false (cb_E s) (subv yt 0 (cb_k cb)) (subv yt off n) (cb_k cb) (cb_k s)) with (g := Y) (h := fun o => Y (off + o)%nat);
    [congruence|congruence|cbn; lia|cbn; lia|exact HE| | | | |exact R1| | |].
  { rewrite subv_subv. intros q Hq. cbn in Hq. rewrite va_subv0. apply A1. lia. }
  { rewrite subv_subv, Nat.add_0_r. intros q Hq. cbn in Hq. rewrite va_subv. apply A2. lia. }
  { rewrite subv_subv. apply (subv_disj yt); [lia|exact DE]. }
  { rewrite !subv_subv. apply subv_sep. lia. }
  { rewrite subv_subv, Nat.add_0_l. exact R2. }
  { rewrite subv_subv, Nat.add_0_r. intros a (q & Hq & ->). apply W1. rewrite va_subv. cbn in Hq. apply in_subv. lia. }
  intros m3 Hv3 Hk3. rewrite subv_subv, Nat.add_0_r in Hv3, Hk3. apply HQ.
  - intros o Ho. cbn in Ho. rewrite va_subv. unfold trans_coef. fold off. destruct (Nat.ltb_spec o (cb_k s)).
    + specialize (Hv3 o). rewrite va_subv in Hv3. rewrite Hv3 by (cbn; lia). f_equal. unfold tr. ring.
    + rewrite (proj2 Hk3) by (apply notin_subv; lia). apply A2. exact Ho.
  - eapply keeps_mono; [|exact Hk3]. intros a (q & Hq & ->). rewrite va_subv. cbn in Hq. apply in_subv. lia.
Qed.

(** Target of the permuted transformation *)
Definition perm_trg (idx : arr nat) m (y : vec) (off n : nat) (ip : nat -> nat) B : Prop :=
  forall p, p < n -> aget idx (off + p) = Ok (ip p) /\ ip p < vdim y /\ get m (va y (ip p)) = Val (B p).

Lemma wp_cb_scatter R W idx off n yp y ip D B m (Q : unit -> mem K -> Prop) :
  perm_trg idx m y off n ip B -> injn ip n -> n = vdim yp -> vval m yp D -> disj (inv yp) (cells (fun p => va y (ip p)) n) -> rdok R W (inv yp) -> wrok W (cells (fun p => va y (ip p)) n) ->
  (forall m', (forall p, p < n -> get m' (va y (ip p)) = Val (B p + D p)%F) -> keeps (cells (fun p => va y (ip p)) n) m m' -> Q tt m') ->
  wp R W (cb_scatter idx off n yp y) m Q.
Proof.
  intros Ht Hinj En Hv Hd Hr Hw HQ. unfold cb_scatter.
  apply (wp_for (fun i m1 => keeps (cells (fun p => va y (ip p)) n) m m1 /\ (forall p, p < n -> get m1 (va y (ip p)) = Val (if p <? i then B p + D p else B p)%F))).
  - split; [apply keeps_refl|]. intros p Hp. cbn. apply Ht, Hp.
  - intros i m1 [_ Hi] (Hk1 & Hg). cbn in Hi. destruct (Ht i Hi) as (A1 & A2 & _).
    apply wp_bind, wp_lift. rewrite A1. cbn [rok]. assert (Ci : cells (fun p => va y (ip p)) n (va y (ip i))) by (exists i; auto).
    pose proof (Hg i Hi) as Gi. rewrite Nat.ltb_irrefl in Gi.
    apply wp_bind. eapply wp_pload; [exact Gi|right; apply Hw, Ci|]. apply wp_bind.
    eapply wp_vload; [eapply vval_keeps; [exact Hv|exact Hk1|exact Hd]|lia|exact Hr|].
    apply wp_pstore; [rewrite Gi; discriminate|apply Hw, Ci|]. split; [eapply keeps_trans; [exact Hk1|apply keeps_upd, Ci]|].
    intros p Hp. destruct (Nat.eq_dec p i) as [->|Hne].
    + rewrite get_upd_same by (rewrite Gi; discriminate). destruct (Nat.ltb_spec i (S i)); [reflexivity|lia].
    + rewrite get_upd_other by (intros Eq; apply va_inj in Eq; apply Hne; apply Hinj; auto). rewrite (Hg p Hp).
      destruct (Nat.ltb_spec p i), (Nat.ltb_spec p (S i)); try lia; reflexivity.
  - intros m1 (Hk1 & Hg). apply HQ; [|exact Hk1]. intros p Hp. rewrite (Hg p Hp). cbn [Nat.add]. apply Nat.ltb_lt in Hp. rewrite Hp. reflexivity.
Qed.

Lemma cells_mono out n n' o a : o + n' <= n -> cells (fun p => out (o + p)) n' a -> cells out n a.
Proof. intros H (p & Hp & ->). exists (o + p). split; [lia|reflexivity]. Qed.
Lemma cells_sep out n o n' p : injn out n -> o + n' <= n -> p < n -> p < o \/ o + n' <= p -> ~ cells (fun p => out (o + p)) n' (out p).
Proof. intros Hi Ho Hp Hc (q & Hq & E). apply Hi in E; lia. Qed.

(** The leaf case *)
Lemma wp_backward_leaf idx (t : cptr G) k kb V E Z R W yt y ip Y B m m0 (Q : unit -> mem K -> Prop) :
  cbok (CB t k (k + csz t) kb V E [] Z) -> mval m V (mfun m0 V) -> vdim yt = k + csz t -> vval m yt Y ->
  perm_trg idx m y (c_off (cp_c t)) (csz t) ip B -> injn ip (csz t) ->
  disj (inv yt) (cells (fun p => va y (ip p)) (csz t)) -> disj (inm V) (inv yt) -> rdok R W (inm V) -> wrok W (inv yt) -> wrok W (cells (fun p => va y (ip p)) (csz t)) ->
  (forall m', (forall p, p < csz t -> get m' (va y (ip p)) = Val (B p + bwd_of (cbmat m0) (CB t k (k + csz t) kb V E [] Z) Y p)%F) ->
     (exists Y', vval m' yt Y') -> keeps (fun a => inv yt a \/ cells (fun p => va y (ip p)) (csz t) a) m m' -> Q tt m') ->
  wp R W (yp <- init_sub_avector yt (csz t) k ;;
          mvm_amatrix_avector f1 false V (subv yt 0 k) yp ;;;
          cb_scatter idx (c_off (cp_c t)) (csz t) yp y ;;;
          uninit_avector yp) m Q.
Proof.
  intros Hok HV Ex HY Ht Hinj D1 D2 R1 W1 W2 HQ. destruct (cbok_leaf_inv _ _ _ _ _ _ _ Hok) as (_ & _ & EV1 & EV2).
  apply wp_bind, wp_init_sub_avector; [lia|]. apply wp_bind.
  eapply (wp_mvm_pre R W f1 false V (subv yt 0 k) (subv yt k (csz t)) k (csz t)) with (g := Y) (h := fun p => Y (k + p)%nat);
    [congruence|congruence|cbn; lia|cbn; lia|exact HV| | | | |exact R1| | |].
  { rewrite subv_subv. apply (vval_subv m yt Y 0); [exact HY|lia]. }
  { rewrite subv_subv, Nat.add_0_r. apply (vval_subv m yt Y); [exact HY|lia]. }
  { rewrite subv_subv. apply (subv_disj yt); [lia|exact D2]. }
  { rewrite !subv_subv. apply subv_sep. lia. }
  { rewrite subv_subv. apply inv_subv_r; [lia|]. intros a Ha. right. apply W1, Ha. }
  { rewrite subv_subv. apply inv_subv_w; [lia|exact W1]. }
  intros m1 Hv1 Hk1. rewrite subv_subv, Nat.add_0_r in Hv1, Hk1. apply wp_bind.
  eapply (wp_cb_scatter R W idx _ _ (subv yt k (csz t)) y ip _ B); [|exact Hinj|reflexivity|exact Hv1|apply disj_subv; [lia|exact D1]| |exact W2|].
  { intros p Hp. destruct (Ht p Hp) as (A1 & A2 & A3). split; [exact A1|]. split; [exact A2|]. rewrite (proj2 Hk1); [exact A3|].
    intros Hb. apply (D1 (va y (ip p))); [eapply inv_subv; [|exact Hb]; lia|exists p; auto]. }
  { intros a Ha. right. apply W1. eapply inv_subv; [|exact Ha]. lia. }
  intros m2 Hg2 Hk2. cbn [uninit_avector vown subv wp]. apply HQ.
  - intros p Hp. rewrite (Hg2 p Hp). f_equal. rewrite (bwd_leaf L); [|reflexivity|exact Hp]. rewrite (cbmat_leaf m0) by reflexivity. cbn [cb_k cb_V].
    unfold tr. ring.
  - exists (fun o => if o <? k then Y o else (Y (k + (o - k))%nat + f1 * sum k (fun j => tr false (mfun m0 V) (o - k)%nat j * Y j))%F).
    eapply vval_keeps; [|exact Hk2|exact D1]. intros o Ho. destruct (Nat.ltb_spec o k).
    + rewrite (proj2 Hk1) by (apply notin_subv; lia). apply HY, Ho.
    + specialize (Hv1 (o - k)). rewrite va_subv in Hv1. replace (k + (o - k)) with o in * by lia. apply Hv1. cbn. lia.
  - eapply keeps_trans; [eapply keeps_mono; [|exact Hk1]; intros a Ha; left; eapply inv_subv; [|exact Ha]; lia|].
    eapply keeps_mono; [|exact Hk2]. intros a Ha. right. exact Ha.
Qed.

Lemma wp_backward idx cb : forall R W yt y ip Y B m (Q : unit -> mem K -> Prop),
  cbok cb -> cbplaced cb -> cbinit m cb -> vdim yt = cb_ktree cb -> vval m yt Y ->
  perm_trg idx m y (cb_off cb) (cb_size cb) ip B -> injn ip (cb_size cb) ->
  disj (inv yt) (cells (fun p => va y (ip p)) (cb_size cb)) -> disj (incb cb) (inv yt) -> disj (incb cb) (cells (fun p => va y (ip p)) (cb_size cb)) ->
  rdok R W (incb cb) -> wrok W (inv yt) -> wrok W (cells (fun p => va y (ip p)) (cb_size cb)) ->
  (forall m', (forall p, p < cb_size cb -> get m' (va y (ip p)) = Val (B p + bwd_of (cbmat m) cb Y p)%F) ->
     (exists Y', vval m' yt Y') -> keeps (fun a => inv yt a \/ cells (fun p => va y (ip p)) (cb_size cb) a) m m' -> Q tt m') ->
  wp R W (backward_clusterbasis_avector idx cb yt y) m Q.
Proof.
  induction cb as [cb IH] using cb_rect'. intros R W yt y ip Y B m Q Hok Hpl Hini Ex HY Ht Hinj D1 D2 D3 R1 W1 W2 HQ.
  destruct cb as [t k kt kb V E l Z] eqn:Ecb. cbn [backward_clusterbasis_avector].
  assert (Hkk : k <= kt) by exact (cbok_k_ktree _ Hok).
  cbn [cb_ktree] in Ex. wstep.
  apply wp_bind, wp_init_sub_avector; [lia|].
  destruct l as [|s0 l0].
  - apply wp_bind. destruct (cbok_leaf_inv _ _ _ _ _ _ _ Hok) as (-> & _).
    eapply wp_backward_leaf with (m0 := m); [exact Hok|eapply cbinit_V; exact Hini|exact Ex|exact HY|exact Ht|exact Hinj|exact D1| | |exact W1|exact W2|].
    + intros a Ha'. apply D2. constructor. exact Ha'.
    + intros a Ha'. apply R1. constructor. exact Ha'.
    + intros m' HY' HF Hk'. cbn [uninit_avector vown subv wp]. apply HQ; assumption.
  - remember (s0 :: l0) as l eqn:El. assert (Hln : l <> []) by (subst l; discriminate).
    pose (cb' := CB t k kt kb V E l Z). fold cb' in Hok, Hpl, Hini, D2, D3, R1, HQ, IH, Ht, Hinj, D1, W2.
    pose proof (cbok_size cb' Hok Hln) as Esz. change (csz t = nsum (length l) (at_ cb_size l)) in Esz.
    pose proof (cbok_ktree_node cb' Hok Hln) as Ekt. change (kt = k + nsum (length l) (at_ cb_ktree l)) in Ekt.
    pose (out := fun p => va y (ip p)). fold out in D1, D3, W2, HQ. change (cb_size cb') with (csz t) in *.
    pose (W2' := fun a => inv yt a \/ cells out (csz t) a). fold W2' in HQ.
    assert (D4 : disj (incb cb') W2') by (intros a Hx [Hy|Hy]; [apply (D2 a Hx Hy)|apply (D3 a Hx Hy)]).
    apply wp_bind. rewrite El. cbv zeta. rewrite <- El. apply wp_bind. unfold sons. rewrite map_length.
    apply (wp_forS (fun i ytoff m1 => ytoff = k + nsum i (at_ cb_ktree l) /\ bwd_inv (cbmat m) m1 cb' (va yt) out Y B i /\ keeps W2' m m1)).
    + split; [cbn; lia|]. split; [|apply keeps_refl]. apply bwd_inv_0; [intros o Ho; apply HY; cbn in Ho; lia|exact Hkk|].
      intros p Hp. apply Ht. exact Hp.
    + intros i ytoff m1 [_ Hi] (-> & HI & K1). cbn in Hi. destruct (nth_ex l i Hi) as [s Hsi].
      rewrite (sget_map _ _ _ _ Hsi). cbn [bind fst snd]. destruct (nth_in _ _ _ Hsi) as [_ Hin].
      assert (Hr1 : nsum i (at_ cb_size l) + cb_size s <= csz t) by apply (son_room cb' i s Hok Hsi).
      assert (Hr2 : k + nsum i (at_ cb_ktree l) + cb_ktree s <= kt) by apply (son_room cb' i s Hok Hsi).
      destruct (placed_son cb' i s Hpl Hsi) as [Eo Hpls]. destruct (cbok_son cb' s Hok Hin) as (Hoks & _ & _).
      pose proof (cbok_k_ktree s Hoks) as Hks.
      assert (D4s : disj (incb s) W2') by (apply (son_disj _ cb' s Hin D4)).
      destruct HI as (I1 & I2 & I3 & I4 & I5). cbn [cb_k cb_son cb_ktree cb'] in I1, I2, I3, I4, I5. change (cb_size cb') with (csz t) in I5.
      apply wp_bind, wp_init_sub_avector; [lia|]. apply wp_bind.
      eapply (wp_backward_son cb' i s R W _ _ yt Y m m1); [exact Hok|exact Hsi|exact Ex| | | | |reflexivity| | | | |].
      { eapply mval_keeps; [exact (cbinit_E m cb' s Hini Hin)|exact K1|]. intros a Ha'. apply D4. eapply incb_E; eauto. }
      { intros a Ha'. apply D2. eapply incb_E; eauto. }
      { exact I1. }
      { intros o Ho. cbn [cb_k cb_son cb']. apply I2. lia. }
      { exists (cb_ktree s). split; [reflexivity|lia]. }
      { intros a Ha'. apply R1. eapply incb_E; eauto. }
      { apply inv_subv_r; [cbn [cb_k cb']; lia|]. intros a Ha'. right. apply W1, Ha'. }
      { apply inv_subv_w; [cbn [cb_k cb_son cb']; lia|exact W1]. }
      intros m2 Hv2 Hk2. cbn [cb_k cb_son cb'] in Hv2, Hk2. apply wp_bind. set (off := k + nsum i (at_ cb_ktree l)) in *. set (po := nsum i (at_ cb_size l)) in *.
      assert (K2 : keeps W2' m m2) by (eapply keeps_trans; [exact K1|]; eapply keeps_mono; [|exact Hk2]; intros a Ha'; left; eapply inv_subv; [|exact Ha']; lia).
      assert (N2 : forall p, p < csz t -> get m2 (out p) = get m1 (out p)).
      { intros p Hp. apply (proj2 Hk2). intros Hb. apply (D1 (out p)); [eapply inv_subv; [|exact Hb]; lia|exists p; auto]. }
      eapply (IH s Hin R W (subv yt off (cb_ktree s)) y (fun p => ip (po + p)) (trans_coef m cb' i s Y) (shiftv B po)).
      * exact Hoks.
      * exact Hpls.
      * eapply cbinit_keeps; [eapply cbinit_son; [exact Hini|exact Hin]|exact K2|exact D4s].
      * reflexivity.
      * exact Hv2.
      * intros p Hp. rewrite Eo. cbn [cb_son cb']. fold po. destruct (Ht (po + p)) as (B1 & B2 & B3); [lia|]. rewrite <- Nat.add_assoc.
        split; [exact B1|]. split; [exact B2|]. change (va y (ip (po + p))) with (out (po + p)). rewrite N2 by lia. apply I5. lia.
      * intros p q Hp Hq Eq. apply Hinj in Eq; lia.
      * apply disj_subv; [lia|]. intros a Ha' Hb. apply (D1 a Ha'). eapply (cells_mono out _ (cb_size s) po); [lia|exact Hb].
      * apply (subv_disj yt); [lia|]. intros a Ha' Hb. apply (D4s a Ha'). left. exact Hb.
      * intros a Ha' Hb. apply (D4s a Ha'). right. eapply (cells_mono out _ (cb_size s) po); [lia|exact Hb].
      * apply (son_w _ _ cb' s Hin R1).
      * apply inv_subv_w; [lia|exact W1].
      * intros a Ha'. apply W2. eapply (cells_mono out _ (cb_size s) po); [lia|exact Ha'].
      * intros m3 Hg3 [Y3 HY3] Hk3. cbn [uninit_avector vown subv bind wp nsum]. rewrite (at_nth _ _ _ _ Hsi).
        split; [unfold off; lia|].
        assert (K3 : keeps W2' m2 m3). { eapply keeps_mono; [|exact Hk3]. intros a [Hb|Hb]; [left; eapply inv_subv; [|exact Hb]; lia|right; eapply (cells_mono out _ (cb_size s) po); [lia|exact Hb]]. }
        split; [|eapply keeps_trans; [exact K2|exact K3]].
        eapply (bwd_inv_step _ m1 m3 cb' (va yt) out Y B i s Hok); [unfold bwd_inv; auto|exact Hsi| | | |]; cbn [cb_k cb_son cb_ktree cb']; fold off po.
        -- intros o Ho Hc. rewrite (proj2 Hk3).
           ++ apply (proj2 Hk2). apply notin_subv. lia.
           ++ intros [Hb|Hb]; [revert Hb; apply notin_subv; lia|]. apply (D1 (va yt o)); [exists o; split; [lia|reflexivity]|]. eapply (cells_mono out _ (cb_size s) po); [lia|exact Hb].
        -- intros o Ho. exists (Y3 o). specialize (HY3 o Ho). rewrite va_subv in HY3. exact HY3.
        -- intros p Hp Hc. rewrite (proj2 Hk3); [apply N2, Hp|]. intros [Hb|Hb].
           ++ apply (D1 (out p)); [eapply inv_subv; [|exact Hb]; lia|exists p; auto].
           ++ revert Hb. apply (cells_sep out (csz t)); [intros a b Ha Hb E'; apply va_inj in E'; apply Hinj; auto|lia|exact Hp|exact Hc].
        -- intros p Hp. change (out (po + p)) with (va y (ip (po + p))). rewrite (Hg3 p Hp). f_equal. f_equal.
           pose proof (bwd_transfer L m cb' Y i s p Hok Hsi Hp) as HT. cbn [cb_k cb_son cb'] in HT. fold po in HT. etransitivity; [|symmetry; exact HT].
           apply bwd_ext; [exact Hoks|exact Hp| |reflexivity].
           apply (cbmat_son_keeps m m2 cb' s W2' Hin K2 D4).
    + intros ytoff m1 (-> & HI & K1). cbn [Nat.add] in HI |- *. wstep. cbn [uninit_avector vown subv wp].
      destruct HI as (I1 & I2 & I3 & I4 & I5). cbn [cb_k cb_son cb_ktree cb'] in I1, I2, I3, I4, I5. apply HQ; [|  |exact K1].
      * intros p Hp. apply I4. lia.
      * exists (fun o => match get m1 (va yt o) with Val v => v | _ => f0 end). intros o Ho. destruct (I3 o) as [v Hv]; [lia|]. rewrite Hv. reflexivity.
Qed.

Lemma wp_backward_nop cb : forall R W yt yp Y B m (Q : unit -> mem K -> Prop),
  cbok cb -> cbinit m cb -> vdim yt = cb_ktree cb -> vval m yt Y -> vdim yp = cb_size cb -> vval m yp B ->
  disj (inv yt) (inv yp) -> disj (incb cb) (inv yt) -> disj (incb cb) (inv yp) ->
  rdok R W (incb cb) -> wrok W (inv yt) -> wrok W (inv yp) ->
  (forall m', vval m' yp (fun p => B p + bwd_of (cbmat m) cb Y p)%F ->
     (exists Y', vval m' yt Y') -> keeps (fun a => inv yt a \/ inv yp a) m m' -> Q tt m') ->
  wp R W (backward_nopermutation_clusterbasis_avector cb yt yp) m Q.
Proof.
  induction cb as [cb IH] using cb_rect'. intros R W yt yp Y B m Q Hok Hini Ex HY Exp HB D1 D2 D3 R1 W1 W2 HQ.
  destruct cb as [t k kt kb V E l Z] eqn:Ecb. cbn [backward_nopermutation_clusterbasis_avector].
  assert (Hkk : k <= kt) by exact (cbok_k_ktree _ Hok). change (vdim yp = csz t) in Exp.
  cbn [cb_ktree] in Ex. wstep. wstep.
  apply wp_bind, wp_init_sub_avector; [lia|].
  destruct l as [|s0 l0].
  - apply wp_bind. destruct (cbok_leaf_inv _ _ _ _ _ _ _ Hok) as (-> & -> & EV1 & EV2).
    assert (D4 : disj (inm V) (inv yt)) by (intros a Ha'; apply D2; constructor; exact Ha').
    apply wp_bind, wp_init_sub_avector; [lia|]. apply wp_bind. change (@addeval_amatrix_avector K f1 V) with (@mvm_amatrix_avector K f1 false V).
    eapply (wp_mvm_pre R W f1 false V (subv yt 0 k) (subv yt k (csz t)) k (csz t)) with (g := Y) (h := fun p => Y (k + p)%nat);
      [congruence|congruence|cbn; lia|cbn; lia|eapply cbinit_V; exact Hini| | | | | | | |].
    { rewrite subv_subv. apply (vval_subv m yt Y 0); [exact HY|lia]. }
    { rewrite subv_subv, Nat.add_0_r. apply (vval_subv m yt Y); [exact HY|lia]. }
    { rewrite subv_subv. apply (subv_disj yt); [lia|exact D4]. }
    { rewrite !subv_subv. apply subv_sep. lia. }
    { intros a Ha'. apply R1. constructor. exact Ha'. }
    { rewrite subv_subv. apply inv_subv_r; [lia|]. intros a Ha. right. apply W1, Ha. }
    { rewrite subv_subv. apply inv_subv_w; [lia|exact W1]. }
    intros m1 Hv1 Hk1. rewrite subv_subv, Nat.add_0_r in Hv1, Hk1. apply wp_bind.
    assert (Hk1' : keeps (inv yt) m m1) by (eapply keeps_subv; [|exact Hk1]; lia).
    eapply wp_add_avector; [exact Hv1|eapply vval_keeps; [exact HB|exact Hk1'|intros a H1 H2; exact (D1 a H2 H1)]|cbn; lia|apply disj_subv; [lia|exact D1]| |exact W2|].
    { apply inv_subv_r; [lia|]. intros a Ha. right. apply W1, Ha. }
    intros m2 Hv2 Hk2. cbn [uninit_avector vown subv wp]. apply HQ.
    + eapply vval_ext; [exact Hv2|]. intros p Hp. cbn [vdim subv]. cbv beta. destruct (Nat.ltb_spec p (csz t)); [|lia].
      rewrite (bwd_leaf L) by (try reflexivity; assumption). rewrite (cbmat_leaf m) by reflexivity. cbn [cb_k cb_V]. unfold tr. ring.
    + exists (fun o => if o <? k then Y o else (Y (k + (o - k))%nat + f1 * sum k (fun j => tr false (mfun m V) (o - k)%nat j * Y j))%F).
      eapply vval_keeps; [|exact Hk2|exact D1]. intros o Ho. destruct (Nat.ltb_spec o k).
      * rewrite (proj2 Hk1) by (apply notin_subv; lia). apply HY, Ho.
      * specialize (Hv1 (o - k)). rewrite va_subv in Hv1. replace (k + (o - k)) with o in * by lia. apply Hv1. cbn. lia.
    + eapply keeps_trans; [eapply keeps_mono; [|exact Hk1']; intros a Ha; left; exact Ha|].
      eapply keeps_mono; [|exact Hk2]. intros a Ha. right. exact Ha.
  - remember (s0 :: l0) as l eqn:El. assert (Hln : l <> []) by (subst l; discriminate).
    pose (cb' := CB t k kt kb V E l Z). fold cb' in Hok, Hini, D2, D3, R1, HQ, IH.
    pose proof (cbok_size cb' Hok Hln) as Esz. change (csz t = nsum (length l) (at_ cb_size l)) in Esz.
    pose proof (cbok_ktree_node cb' Hok Hln) as Ekt. change (kt = k + nsum (length l) (at_ cb_ktree l)) in Ekt.
    pose (W2' := fun a => inv yt a \/ inv yp a). fold W2' in HQ.
    assert (D4 : disj (incb cb') W2') by (intros a Hx [Hy|Hy]; [apply (D2 a Hx Hy)|apply (D3 a Hx Hy)]).
    apply wp_bind. rewrite El. cbv zeta. rewrite <- El. apply wp_bind. unfold sons. rewrite map_length.
    apply (wp_forS (fun i offs m1 => offs = (nsum i (at_ cb_size l), k + nsum i (at_ cb_ktree l)) /\ bwd_inv (cbmat m) m1 cb' (va yt) (va yp) Y B i /\ keeps W2' m m1)).
    + split; [cbn [nsum]; rewrite Nat.add_0_r; reflexivity|]. split; [|apply keeps_refl]. apply bwd_inv_0; [intros o Ho; apply HY; cbn in Ho; lia|exact Hkk|].
      intros p Hp. apply HB. change (cb_size cb') with (csz t) in Hp. lia.
    + intros i offs m1 [_ Hi] (-> & HI & K1). cbn in Hi. destruct (nth_ex l i Hi) as [s Hsi].
      rewrite (sget_map _ _ _ _ Hsi). cbn [bind fst snd]. destruct (nth_in _ _ _ Hsi) as [_ Hin].
      assert (Hr1 : nsum i (at_ cb_size l) + cb_size s <= csz t) by apply (son_room cb' i s Hok Hsi).
      assert (Hr2 : k + nsum i (at_ cb_ktree l) + cb_ktree s <= kt) by apply (son_room cb' i s Hok Hsi).
      destruct (cbok_son cb' s Hok Hin) as (Hoks & _ & _).
      pose proof (cbok_k_ktree s Hoks) as Hks.
      assert (D4s : disj (incb s) W2') by (apply (son_disj _ cb' s Hin D4)).
      destruct HI as (I1 & I2 & I3 & I4 & I5). cbn [cb_k cb_son cb_ktree cb'] in I1, I2, I3, I4, I5. change (cb_size cb') with (csz t) in I5.
      apply wp_bind, wp_init_sub_avector; [lia|]. apply wp_bind.
      change (@addeval_amatrix_avector K f1 (cb_E s)) with (@mvm_amatrix_avector K f1 false (cb_E s)).
      eapply (wp_backward_son cb' i s R W _ _ yt Y m m1); [exact Hok|exact Hsi|exact Ex| | | | |reflexivity| | | | |].
      { eapply mval_keeps; [exact (cbinit_E m cb' s Hini Hin)|exact K1|]. intros a Ha'. apply D4. eapply incb_E; eauto. }
      { intros a Ha'. apply D2. eapply incb_E; eauto. }
      { exact I1. }
      { intros o Ho. cbn [cb_k cb_son cb']. apply I2. lia. }
      { exists (cb_k s). split; [reflexivity|lia]. }
      { intros a Ha'. apply R1. eapply incb_E; eauto. }
      { apply inv_subv_r; [cbn [cb_k cb']; lia|]. intros a Ha'. right. apply W1, Ha'. }
      { apply inv_subv_w; [cbn [cb_k cb_son cb']; lia|exact W1]. }
      intros m2 Hv2 Hk2. cbn [cb_k cb_son cb'] in Hv2, Hk2. cbn [uninit_avector vown subv bind wp].
      rewrite (cbok_tsz cb' i s Hok Hsi : tson_size t i = _). cbn [bind].
      apply wp_bind, wp_init_sub_avector; [lia|]. apply wp_bind, wp_init_sub_avector; [lia|].
      apply wp_bind. set (off := k + nsum i (at_ cb_ktree l)) in *. set (po := nsum i (at_ cb_size l)) in *.
      assert (K2 : keeps W2' m m2) by (eapply keeps_trans; [exact K1|]; eapply keeps_mono; [|exact Hk2]; intros a Ha'; left; eapply inv_subv; [|exact Ha']; lia).
      assert (N2 : forall p, p < csz t -> get m2 (va yp p) = get m1 (va yp p)).
      { intros p Hp. apply (proj2 Hk2). intros Hb. apply (D1 (va yp p)); [eapply inv_subv; [|exact Hb]; lia|exists p; split; [lia|reflexivity]]. }
      eapply (IH s Hin R W (subv yt off (cb_ktree s)) (subv yp po (cb_size s)) (trans_coef m cb' i s Y) (shiftv B po)).
      * exact Hoks.
      * eapply cbinit_keeps; [eapply cbinit_son; [exact Hini|exact Hin]|exact K2|exact D4s].
      * reflexivity.
      * exact Hv2.
      * reflexivity.
      * intros p Hp. cbn in Hp. rewrite va_subv. rewrite N2 by lia. apply I5. lia.
      * apply disj_subv; [lia|]. apply (subv_disj yt); [lia|exact D1].
      * apply (subv_disj yt); [lia|]. intros a Ha' Hb. apply (D4s a Ha'). left. exact Hb.
      * apply (subv_disj yt); [lia|]. intros a Ha' Hb. apply (D4s a Ha'). right. exact Hb.
      * apply (son_w _ _ cb' s Hin R1).
      * apply inv_subv_w; [lia|exact W1].
      * apply inv_subv_w; [lia|exact W2].
      * intros m3 Hg3 [Y3 HY3] Hk3. cbn [uninit_avector vown subv bind wp nsum]. rewrite !(at_nth _ _ _ _ Hsi).
        split; [unfold off; f_equal; lia|].
        assert (K3 : keeps W2' m2 m3). { eapply keeps_mono; [|exact Hk3]. intros a [Hb|Hb]; [left|right]; (eapply inv_subv; [|exact Hb]; lia). }
        split; [|eapply keeps_trans; [exact K2|exact K3]].
        eapply (bwd_inv_step _ m1 m3 cb' (va yt) (va yp) Y B i s Hok); [unfold bwd_inv; auto|exact Hsi| | | |]; cbn [cb_k cb_son cb_ktree cb']; fold off po.
        -- intros o Ho Hc. rewrite (proj2 Hk3).
           ++ apply (proj2 Hk2). apply notin_subv. lia.
           ++ intros [Hb|Hb]; [revert Hb; apply notin_subv; lia|]. apply (D1 (va yt o)); [exists o; split; [lia|reflexivity]|]. eapply inv_subv; [|exact Hb]; lia.
        -- intros o Ho. exists (Y3 o). specialize (HY3 o Ho). rewrite va_subv in HY3. exact HY3.
        -- intros p Hp Hc. change (cb_size cb') with (csz t) in Hp. rewrite (proj2 Hk3); [apply N2, Hp|]. intros [Hb|Hb].
           ++ apply (D1 (va yp p)); [eapply inv_subv; [|exact Hb]; lia|exists p; split; [lia|reflexivity]].
           ++ revert Hb. apply notin_subv. lia.
        -- intros p Hp. specialize (Hg3 p Hp). rewrite va_subv in Hg3. rewrite Hg3. f_equal. f_equal.
           pose proof (bwd_transfer L m cb' Y i s p Hok Hsi Hp) as HT. cbn [cb_k cb_son cb'] in HT. fold po in HT. etransitivity; [|symmetry; exact HT].
           apply bwd_ext; [exact Hoks|exact Hp| |reflexivity].
           apply (cbmat_son_keeps m m2 cb' s W2' Hin K2 D4).
    + intros ytoff m1 (-> & HI & K1). cbn [Nat.add fst snd] in HI |- *. wstep. wstep. cbn [uninit_avector vown subv wp].
      destruct HI as (I1 & I2 & I3 & I4 & I5). cbn [cb_k cb_son cb_ktree cb'] in I1, I2, I3, I4, I5. apply HQ; [|  |exact K1].
      * intros p Hp. apply I4. lia.
      * exists (fun o => match get m1 (va yt o) with Val v => v | _ => f0 end). intros o Ho. destruct (I3 o) as [v Hv]; [lia|]. rewrite Hv. reflexivity.
Qed.
End P4.
