(** * Backward transformation, compression and expansion of matrices *)
From Coq Require Import Arith Lia List Bool Ring.
From Verif Require Import Fld Ord Prog Arr View Loop Spec Cluster Block Avector AvectorP Amatrix AmatrixP LrP3 Hmatrix HmSpec HmP Clusterbasis CbSpec CbP CbP2 CbP3 CbP4 CbP9.
Import ListNotations.

Section P10.
Context {K : fops} {G : ofops} (L : ring_laws K).
Add Ring KringCb10 : (rl_ring K L).
Implicit Types (m : mem K) (cb c s : cbasis G) (X Y B C : nat -> nat -> K).

Definition cur m A (i j : nat) : K := match get m (ma A i j) with Val v => v | _ => f0 end.

Lemma wp_bwdm_son cb i s R W (Yt : mat) Y m0 m1 (Q : unit -> mem K -> Prop) :
  cbok cb -> nth_error (cb_son cb) i = Some s -> mrows Yt = cb_ktree cb -> mwf Yt -> mval m1 (cb_E s) (mfun m0 (cb_E s)) -> disj (inm (cb_E s)) (inm Yt) ->
  (forall o j, o < cb_k cb -> j < mcols Yt -> get m1 (ma Yt o j) = Val (Y o j)) ->
  (forall o j, o < cb_ktree s -> j < mcols Yt -> get m1 (ma Yt (cb_k cb + nsum i (at_ cb_ktree (cb_son cb)) + o) j) = Val (Y (cb_k cb + nsum i (at_ cb_ktree (cb_son cb)) + o)%nat j)) ->
  rdok R W (inm (cb_E s)) -> wrok W (inm Yt) ->
  (forall m2, mval m2 (rb Yt (cb_k cb + nsum i (at_ cb_ktree (cb_son cb))) (cb_ktree s)) (fun o j => trans_coef m0 cb i s (fun o => Y o j) o) ->
     keeps (inm (rb Yt (cb_k cb + nsum i (at_ cb_ktree (cb_son cb))) (cb_ktree s))) m1 m2 -> Q tt m2) ->
  wp R W (addmul_amatrix f1 false (cb_E s) false (rb Yt 0 (cb_k cb)) (rb Yt (cb_k cb + nsum i (at_ cb_ktree (cb_son cb))) (cb_k s))) m1 Q.
Proof.
  intros Hok Hs Ex Hwf HE DE A1 A2 R1 W1 HQ. set (off := cb_k cb + nsum i (at_ cb_ktree (cb_son cb))) in *.
  destruct (nth_in _ _ _ Hs) as [Hi Hin]. destruct (cbok_son cb s Hok Hin) as (Hoks & E1 & E2).
  destruct (son_room cb i s Hok Hs) as [_ Hroom]. fold off in Hroom. pose proof (cbok_k_ktree s Hoks) as Hks.
  eapply (wp_addmul_amatrix L R W f1 false (cb_E s) false (rb Yt 0 (cb_k cb)) (rb Yt off (cb_k s)) (mfun m0 (cb_E s)) Y (fun o j => Y (off + o)%nat j)).
  - apply mwf_subm; [exact Hwf|lia].
  - exact HE.
  - intros q j Hq Hj. rewrite rb_ma. apply A1; assumption.
  - intros q j Hq Hj. cbn in Hq, Hj. rewrite rb_ma. apply A2; lia.
  - apply rb_disj; [lia|exact DE].
  - apply rb_sep; [exact Hwf|lia..].
  - exact R1.
  - apply rb_wr; [lia|exact W1].
  - apply rb_w; [lia|exact W1].
  - cbn. lia.
  - cbn. lia.
  - cbn. exact E2.
  - intros m3 Hv3 Hk3. apply HQ.
    + intros o j Ho Hj. cbn in Ho, Hj. rewrite rb_ma. unfold trans_coef. fold off. destruct (Nat.ltb_spec o (cb_k s)).
      * specialize (Hv3 o j). rewrite rb_ma in Hv3. rewrite Hv3 by (cbn; lia). cbn [mcols subm tr]. rewrite E1, E2.
        destruct (Nat.ltb_spec o (cb_k s)); [|lia]. destruct (Nat.ltb_spec j (mcols Yt)); [|lia]. cbn [andb]. f_equal. ring.
      * rewrite (proj2 Hk3) by (apply rb_notin; [exact Hwf|lia..]). apply A2; assumption.
    + eapply keeps_mono; [|exact Hk3]. intros a (q & j & Hq & Hj & ->). cbn in Hq, Hj. rewrite rb_ma, <- (rb_ma Yt off (cb_ktree s)). apply inm_ma; cbn; lia.
Qed.

Lemma wp_bwdm cb : forall R W Yt Yp Y B m (Q : unit -> mem K -> Prop),
  cbok cb -> cbinit m cb -> mrows Yt = cb_ktree cb -> mwf Yt -> mval m Yt Y -> mrows Yp = cb_size cb -> mcols Yp = mcols Yt -> mwf Yp -> mval m Yp B ->
  disj (inm Yt) (inm Yp) -> disj (incb cb) (inm Yt) -> disj (incb cb) (inm Yp) ->
  rdok R W (incb cb) -> wrok W (inm Yt) -> wrok W (inm Yp) ->
  (forall m', mval m' Yp (fun p j => B p j + bwd_of (cbmat m) cb (fun o => Y o j) p)%F ->
     (exists Y', mval m' Yt Y') -> keeps (fun a => inm Yt a \/ inm Yp a) m m' -> Q tt m') ->
  wp R W (backward_clusterbasis_amatrix cb Yt Yp) m Q.
Proof.
  induction cb as [cb IH] using cb_rect'. intros R W Yt Yp Y B m Q Hok Hini Ex Hwt HY Exp Ecp Hwp HB D1 D2 D3 R1 W1 W2 HQ.
  destruct cb as [t k kt kb V E l Z] eqn:Ecb. cbn [backward_clusterbasis_amatrix].
  assert (Hkk : k <= kt) by exact (cbok_k_ktree _ Hok). change (mrows Yp = csz t) in Exp.
  cbn [cb_ktree] in Ex. wstep. wstep. wstep.
  apply wp_bind, wp_init_sub_amatrix; [lia|lia|].
  destruct l as [|s0 l0].
  - apply wp_bind. destruct (cbok_leaf_inv _ _ _ _ _ _ _ Hok) as (-> & -> & EV1 & EV2).
    assert (D4 : disj (inm V) (inm Yt)) by (intros a Ha'; apply D2; constructor; exact Ha').
    apply wp_bind, wp_init_sub_amatrix; [lia|lia|]. apply wp_bind.
    eapply (wp_addmul_amatrix L R W f1 false V false (rb Yt 0 k) (rb Yt k (csz t)) (mfun m V) Y (fun p j => Y (k + p)%nat j)).
    { apply mwf_subm; [exact Hwt|lia]. }
    { eapply cbinit_V; exact Hini. }
    { apply (mval_subm m Yt Y 0 k 0); [exact HY|lia|lia]. }
    { apply (mval_subm m Yt Y k (csz t) 0); [exact HY|lia|lia]. }
    { apply rb_disj; [lia|exact D4]. }
    { apply rb_sep; [exact Hwt|lia..]. }
    { intros a Ha'. apply R1. constructor. exact Ha'. }
    { apply rb_wr; [lia|exact W1]. }
    { apply rb_w; [lia|exact W1]. }
    { cbn; lia. }
    { cbn; lia. }
    { cbn; lia. }
    intros m1 Hv1 Hk1. apply wp_bind.
    assert (Hk1' : keeps (inm Yt) m m1) by (eapply rb_keeps; [|exact Hk1]; lia).
    eapply wp_add_amatrix with (t := false); [exact Hwp|exact Hv1|eapply mval_keeps; [exact HB|exact Hk1'|intros a H1 H2; exact (D1 a H2 H1)]|apply disj_rb; [lia|exact D1]| |exact W2|cbn; lia|cbn; lia|].
    { apply rb_wr; [lia|exact W1]. }
    intros m2 Hv2 Hk2. cbn [uninit_amatrix mown subm wp]. apply HQ.
    + eapply mval_ext'; [exact Hv2|]. intros p j Hp Hj. cbn [mrows mcols subm tr]. cbv beta.
      rewrite EV1, EV2. destruct (Nat.ltb_spec p (csz t)); [|lia]. destruct (Nat.ltb_spec j (mcols Yt)); [|lia]. cbn [andb].
      rewrite (bwd_leaf L) by (try reflexivity; assumption). rewrite (cbmat_leaf m) by reflexivity. cbn [cb_k cb_V]. ring.
    + exists (cur m2 Yt). intros o j Ho Hj. unfold cur. rewrite (proj2 Hk2) by (intros Hb; apply (D1 (ma Yt o j)); [apply inm_ma; assumption|exact Hb]).
      destruct (Nat.lt_ge_cases o k).
      * rewrite (proj2 Hk1) by (apply rb_notin; [exact Hwt|lia..]). rewrite (HY o j Ho Hj). reflexivity.
      * specialize (Hv1 (o - k) j). rewrite rb_ma in Hv1. replace (k + (o - k)) with o in * by lia. rewrite Hv1 by (cbn; lia). reflexivity.
    + eapply keeps_trans; [eapply keeps_mono; [|exact Hk1']; intros a Ha; left; exact Ha|].
      eapply keeps_mono; [|exact Hk2]. intros a Ha. right. exact Ha.
  - remember (s0 :: l0) as l eqn:El. assert (Hln : l <> []) by (subst l; discriminate).
    pose (cb' := CB t k kt kb V E l Z). fold cb' in Hok, Hini, D2, D3, R1, HQ, IH.
    pose proof (cbok_size cb' Hok Hln) as Esz. change (csz t = nsum (length l) (at_ cb_size l)) in Esz.
    pose proof (cbok_ktree_node cb' Hok Hln) as Ekt. change (kt = k + nsum (length l) (at_ cb_ktree l)) in Ekt.
    pose (W2' := fun a => inm Yt a \/ inm Yp a). fold W2' in HQ.
    assert (D4 : disj (incb cb') W2') by (intros a Hx [Hy|Hy]; [apply (D2 a Hx Hy)|apply (D3 a Hx Hy)]).
    apply wp_bind. rewrite El. cbv zeta. rewrite <- El. apply wp_bind. unfold sons. rewrite map_length.
    apply (wp_forS (fun i offs m1 => offs = (nsum i (at_ cb_size l), k + nsum i (at_ cb_ktree l)) /\
      (forall j, j < mcols Yt -> bwd_inv (cbmat m) m1 cb' (fun o => ma Yt o j) (fun p => ma Yp p j) (fun o => Y o j) (fun p => B p j) i) /\ keeps W2' m m1)).
    + split; [cbn [nsum]; rewrite Nat.add_0_r; reflexivity|]. split; [|apply keeps_refl]. intros j Hj. apply bwd_inv_0; [intros o Ho; apply HY; cbn in Ho; lia|exact Hkk|].
      intros p Hp. apply HB; [|lia]. change (cb_size cb') with (csz t) in Hp. lia.
    + intros i offs m1 [_ Hi] (-> & HI & K1). cbn in Hi. destruct (nth_ex l i Hi) as [s Hsi].
      rewrite (sget_map _ _ _ _ Hsi). cbn [bind fst snd]. destruct (nth_in _ _ _ Hsi) as [_ Hin].
      assert (Hr1 : nsum i (at_ cb_size l) + cb_size s <= csz t) by apply (son_room cb' i s Hok Hsi).
      assert (Hr2 : k + nsum i (at_ cb_ktree l) + cb_ktree s <= kt) by apply (son_room cb' i s Hok Hsi).
      destruct (cbok_son cb' s Hok Hin) as (Hoks & _ & _).
      pose proof (cbok_k_ktree s Hoks) as Hks.
      assert (D4s : disj (incb s) W2') by (apply (son_disj _ cb' s Hin D4)).
      apply wp_bind, wp_init_sub_amatrix; [lia|lia|]. apply wp_bind.
      eapply (wp_bwdm_son cb' i s R W Yt Y m m1); [exact Hok|exact Hsi|exact Ex|exact Hwt| | | | | |exact W1|].
      { eapply mval_keeps; [exact (cbinit_E m cb' s Hini Hin)|exact K1|]. intros a Ha'. apply D4. eapply incb_E; eauto. }
      { intros a Ha'. apply D2. eapply incb_E; eauto. }
      { intros o j Ho Hj. destruct (HI j Hj) as (I1 & _). apply I1. exact Ho. }
      { intros o j Ho Hj. destruct (HI j Hj) as (_ & I2 & _). cbn [cb_k cb_son cb_ktree cb'] in I2 |- *. apply I2. lia. }
      { intros a Ha'. apply R1. eapply incb_E; eauto. }
      intros m2 Hv2 Hk2. cbn [cb_k cb_son cb'] in Hv2, Hk2. cbn [uninit_amatrix mown subm bind wp].
      rewrite (cbok_tsz cb' i s Hok Hsi : tson_size t i = _). cbn [bind].
      apply wp_bind, wp_init_sub_amatrix; [lia|lia|]. apply wp_bind, wp_init_sub_amatrix; [lia|lia|].
      apply wp_bind. set (off := k + nsum i (at_ cb_ktree l)) in *. set (po := nsum i (at_ cb_size l)) in *.
      assert (K2 : keeps W2' m m2) by (eapply keeps_trans; [exact K1|]; eapply keeps_mono; [|exact Hk2]; intros a Ha'; left; eapply rb_in; [|exact Ha']; lia).
      assert (N2 : forall p j, p < csz t -> j < mcols Yt -> get m2 (ma Yp p j) = get m1 (ma Yp p j)).
      { intros p j Hp Hj. apply (proj2 Hk2). intros Hb. apply (D1 (ma Yp p j)); [eapply rb_in; [|exact Hb]; lia|apply inm_ma; lia]. }
      eapply (IH s Hin R W (rb Yt off (cb_ktree s)) (rb Yp po (cb_size s)) (fun o j => trans_coef m cb' i s (fun o => Y o j) o) (fun p j => B (po + p)%nat j)).
      * exact Hoks.
      * eapply cbinit_keeps; [eapply cbinit_son; [exact Hini|exact Hin]|exact K2|exact D4s].
      * reflexivity.
      * apply mwf_subm; [exact Hwt|lia].
      * exact Hv2.
      * reflexivity.
      * exact Ecp.
      * apply mwf_subm; [exact Hwp|lia].
      * intros p j Hp Hj. cbn in Hp, Hj. rewrite rb_ma. rewrite N2 by lia. destruct (HI j ltac:(lia)) as (_ & _ & _ & _ & I5). apply I5. fold (cb_size cb'). cbn [cb_son cb'].
        change (cb_size cb') with (csz t). fold po. lia.
      * apply disj_rb; [lia|]. apply rb_disj; [lia|exact D1].
      * apply rb_disj; [lia|]. intros a Ha' Hb. apply (D4s a Ha'). left. exact Hb.
      * apply rb_disj; [lia|]. intros a Ha' Hb. apply (D4s a Ha'). right. exact Hb.
      * apply (son_w _ _ cb' s Hin R1).
      * apply rb_w; [lia|exact W1].
      * apply rb_w; [lia|exact W2].
      * intros m3 Hg3 [Y3 HY3] Hk3. cbn [uninit_amatrix mown subm bind wp nsum]. rewrite !(at_nth _ _ _ _ Hsi).
        split; [unfold off; f_equal; lia|].
        assert (K3 : keeps W2' m2 m3). { eapply keeps_mono; [|exact Hk3]. intros a [Hb|Hb]; [left|right]; (eapply rb_in; [|exact Hb]; lia). }
        split; [|eapply keeps_trans; [exact K2|exact K3]]. intros j Hj.
        eapply (bwd_inv_step _ m1 m3 cb' (fun o => ma Yt o j) (fun p => ma Yp p j) (fun o => Y o j) (fun p => B p j) i s Hok); [exact (HI j Hj)|exact Hsi| | | |]; cbn [cb_k cb_son cb_ktree cb']; fold off po.
        -- intros o Ho Hc. rewrite (proj2 Hk3).
           ++ apply (proj2 Hk2). apply rb_notin; [exact Hwt|lia..].
           ++ intros [Hb|Hb]; [revert Hb; apply rb_notin; [exact Hwt|lia..]|]. apply (D1 (ma Yt o j)); [apply inm_ma; lia|]. eapply rb_in; [|exact Hb]; lia.
        -- intros o Ho. exists (Y3 o j). specialize (HY3 o j Ho Hj). rewrite rb_ma in HY3. exact HY3.
        -- intros p Hp Hc. change (cb_size cb') with (csz t) in Hp. rewrite (proj2 Hk3); [apply N2; assumption|]. intros [Hb|Hb].
           ++ apply (D1 (ma Yp p j)); [eapply rb_in; [|exact Hb]; lia|apply inm_ma; lia].
           ++ revert Hb. apply rb_notin; [exact Hwp|lia..].
        -- intros p Hp. specialize (Hg3 p j Hp ltac:(cbn; lia)). rewrite rb_ma in Hg3. rewrite Hg3. f_equal. f_equal.
           pose proof (bwd_transfer L m cb' (fun o => Y o j) i s p Hok Hsi Hp) as HT. cbn [cb_k cb_son cb'] in HT. fold po in HT. etransitivity; [|symmetry; exact HT].
           apply bwd_ext; [exact Hoks|exact Hp| |reflexivity].
           apply (cbmat_son_keeps m m2 cb' s W2' Hin K2 D4).
    + intros ytoff m1 (-> & HI & K1). cbn [Nat.add fst snd] in HI |- *. wstep. wstep. cbn [uninit_amatrix mown subm wp].
      apply HQ; [|  |exact K1].
      * intros p j Hp Hj. destruct (HI j ltac:(lia)) as (_ & _ & _ & I4 & _). apply I4. cbn [cb_son cb']. lia.
      * exists (cur m1 Yt). intros o j Ho Hj. unfold cur. destruct (HI j Hj) as (_ & _ & I3 & _). destruct (I3 o) as [v Hv]; [cbn [cb_ktree cb']; lia|]. rewrite Hv. reflexivity.
Qed.

(** The version for adjoint targets is correct for leaf clusters. *)
Lemma wp_bwdm_trans_leaf cb R W Yt Yp Y B m (Q : unit -> mem K -> Prop) :
  cb_son cb = [] -> cbok cb -> cbinit m cb -> mrows Yt = cb_ktree cb -> mwf Yt -> mval m Yt Y -> mcols Yp = cb_size cb -> mrows Yp = mcols Yt -> mwf Yp -> mval m Yp B ->
  disj (inm Yt) (inm Yp) -> disj (incb cb) (inm Yt) -> disj (incb cb) (inm Yp) ->
  rdok R W (incb cb) -> wrok W (inm Yt) -> wrok W (inm Yp) ->
  (forall m', mval m' Yp (fun j p => B j p + fconj (bwd_of (cbmat m) cb (fun o => Y o j) p))%F ->
     keeps (fun a => inm Yt a \/ inm Yp a) m m' -> Q tt m') ->
  wp R W (backward_clusterbasis_trans_amatrix cb Yt Yp) m Q.
Proof.
  intros Hl Hok Hini Ex Hwt HY Exp Ecp Hwp HB D1 D2 D3 R1 W1 W2 HQ.
  destruct cb as [t k kt kb V E l Z] eqn:Ecb. cbn [cb_son] in Hl. subst l. cbn [backward_clusterbasis_trans_amatrix].
  change (mcols Yp = csz t) in Exp. cbn [cb_ktree] in Ex. wstep. wstep. wstep.
  destruct (cbok_leaf_inv _ _ _ _ _ _ _ Hok) as (-> & -> & EV1 & EV2).
  apply wp_bind, wp_init_sub_amatrix; [lia|lia|]. apply wp_bind.
  assert (D4 : disj (inm V) (inm Yt)) by (intros a Ha'; apply D2; constructor; exact Ha').
  apply wp_bind, wp_init_sub_amatrix; [lia|lia|]. apply wp_bind.
  eapply (wp_addmul_amatrix L R W f1 false V false (rb Yt 0 k) (rb Yt k (csz t)) (mfun m V) Y (fun p j => Y (k + p)%nat j)).
  { apply mwf_subm; [exact Hwt|lia]. }
  { eapply cbinit_V; exact Hini. }
  { apply (mval_subm m Yt Y 0 k 0); [exact HY|lia|lia]. }
  { apply (mval_subm m Yt Y k (csz t) 0); [exact HY|lia|lia]. }
  { apply rb_disj; [lia|exact D4]. }
  { apply rb_sep; [exact Hwt|lia..]. }
  { intros a Ha'. apply R1. constructor. exact Ha'. }
  { apply rb_wr; [lia|exact W1]. }
  { apply rb_w; [lia|exact W1]. }
  { cbn; lia. }
  { cbn; lia. }
  { cbn; lia. }
  intros m1 Hv1 Hk1. apply wp_bind.
  assert (Hk1' : keeps (inm Yt) m m1) by (eapply rb_keeps; [|exact Hk1]; lia).
  eapply wp_add_amatrix with (t := true); [exact Hwp|exact Hv1|eapply mval_keeps; [exact HB|exact Hk1'|intros a H1 H2; exact (D1 a H2 H1)]|apply disj_rb; [lia|exact D1]| |exact W2|cbn; lia|cbn; lia|].
  { apply rb_wr; [lia|exact W1]. }
  intros m2 Hv2 Hk2. cbn [uninit_amatrix mown subm wp]. apply HQ.
  + eapply mval_ext'; [exact Hv2|]. intros j p Hj Hp. cbn [mrows mcols subm tr]. cbv beta.
    rewrite EV1, EV2. destruct (Nat.ltb_spec p (csz t)); [|lia]. destruct (Nat.ltb_spec j (mcols Yt)); [|lia]. cbn [andb].
    rewrite (bwd_leaf L) by (try reflexivity; unfold cb_size; cbn [cb_t]; lia). rewrite (cbmat_leaf m) by reflexivity. cbn [cb_k cb_V].
    assert (HE : forall a b c : K, (a + 1 * fconj (b + 1 * c) = a + fconj (c + b))%F) by (intros a b c; replace (b + 1 * c)%F with (c + b)%F by ring; ring).
    apply HE.
  + eapply keeps_trans; [eapply keeps_mono; [|exact Hk1']; intros a Ha; left; exact Ha|].
    eapply keeps_mono; [|exact Hk2]. intros a Ha. right. exact Ha.
Qed.

Lemma wp_compressm cb : forall R W Xp Xt X m (Q : unit -> mem K -> Prop),
  cbok cb -> cbinit m cb -> cb_kbranch cb <= mrows Xt -> mwf Xt -> malloc m Xt -> mrows Xp = cb_size cb -> mcols Xp = mcols Xt -> mval m Xp X ->
  disj (inm Xp) (inm Xt) -> disj (incb cb) (inm Xt) -> rdok R W (incb cb) -> rdok R W (inm Xp) -> wrok W (inm Xt) ->
  (forall m', mval m' (rb Xt 0 (cb_k cb)) (fun q j => fwdc (cbmat m) cb (fun p => X p j) q) -> malloc m' Xt -> keeps (inm (rb Xt 0 (cb_kbranch cb))) m m' -> Q tt m') ->
  wp R W (compress_clusterbasis_amatrix cb Xp Xt) m Q.
Proof.
  induction cb as [cb IH] using cb_rect'. intros R W x xt X m Q Hok Hini Ex Hwf Ha Exp Ecp Hs D1 D2 R1 R2 W1 HQ.
  destruct cb as [t k kt kb V E l Z] eqn:Ecb. cbn [compress_clusterbasis_amatrix].
  assert (Hkk : k <= kb) by exact (cbok_kbranch_k _ Hok). change (mrows x = csz t) in Exp.
  cbn [cb_kbranch] in Ex. cbn [cb_k cb_kbranch] in HQ. wstep. wstep.
  apply wp_bind, wp_init_sub_amatrix; [lia|lia|].
  apply wp_bind, wp_clear_amatrix; [apply mwf_subm; [exact Hwf|lia]|apply rb_malloc; [exact Ha|lia]|apply rb_w; [lia|exact W1]|].
  intros m0 Hc0 Hk0. assert (K0 : keeps (inm xt) m m0) by (eapply rb_keeps; [|exact Hk0]; lia).
  assert (SUB : forall o n (m1 m2 : mem K), o + n <= kb -> keeps (inm (rb xt o n)) m1 m2 -> keeps (inm (rb xt 0 kb)) m1 m2).
  { intros o n m1 m2 Ho. apply keeps_mono. intros a (q & j & Hq & Hj & ->). cbn in Hq, Hj. rewrite rb_ma. change (o + q) with (0 + (o + q)). rewrite <- (rb_ma xt 0 kb). apply inm_ma; cbn; lia. }
  assert (K0' : keeps (inm (rb xt 0 kb)) m m0) by (eapply SUB; [|exact Hk0]; lia).
  assert (Ha0 : malloc m0 xt) by (eapply rb_malloc_keeps; [exact Hwf| |exact Ha|eapply mval_malloc; exact Hc0|exact Hk0]; lia).
  destruct l as [|s0 l0].
  - destruct (cbok_leaf_inv _ _ _ _ _ _ _ Hok) as (-> & -> & EV1 & EV2).
    assert (D3 : disj (inm V) (inm xt)) by (intros a Ha'; apply D2; constructor; exact Ha').
    apply wp_bind.
    eapply (wp_addmul_amatrix L R W f1 true V false x (rb xt 0 k) (mfun m V) X (fun _ _ => f0)).
    { apply mwf_subm; [exact Hwf|lia]. }
    { eapply mval_keeps; [eapply cbinit_V; exact Hini|exact K0|exact D3]. }
    { eapply mval_keeps; [exact Hs|exact K0|exact D1]. }
    { exact Hc0. }
    { apply rb_disj; [lia|exact D3]. }
    { apply rb_disj; [lia|exact D1]. }
    { intros a Ha'. apply R1. constructor. exact Ha'. }
    { exact R2. }
    { apply rb_w; [lia|exact W1]. }
    { cbn; lia. }
    { cbn; lia. }
    { cbn; lia. }
    intros m2 Hv2 Hk2. cbn [uninit_amatrix mown subm wp]. apply HQ.
    + eapply mval_ext'; [exact Hv2|]. intros q j Hq Hj; cbv beta. cbn in Hq, Hj. cbn [tr]. rewrite EV1, EV2, Ecp.
      apply Nat.ltb_lt in Hq, Hj. rewrite Hq, Hj. cbn [andb]. unfold fwdc. rewrite (cbmat_leaf m) by reflexivity. cbn [cb_V]. unfold cb_size; cbn [cb_t]. ring.
    + eapply rb_malloc_keeps; [exact Hwf| |exact Ha0|eapply mval_malloc; exact Hv2|exact Hk2]. lia.
    + eapply keeps_trans; [exact K0'|]. eapply SUB; [|exact Hk2]; lia.
  - remember (s0 :: l0) as l eqn:El. assert (Hln : l <> []) by (subst l; discriminate).
    pose (cb' := CB t k kt kb V E l Z). fold cb' in Hok, Hini, D2, R1, HQ, IH.
    pose proof (cbok_size cb' Hok Hln) as Esz. change (csz t = nsum (length l) (at_ cb_size l)) in Esz.
    apply wp_bind. rewrite El. cbv zeta. rewrite <- El. apply wp_bind. unfold sons. rewrite map_length.
    apply (wp_forS (fun i off m1 => off = nsum i (at_ cb_size l) /\ (forall q j, q < k -> j < mcols xt -> get m1 (ma xt q j) = Val (fwd_part m cb' (fun p => X p j) i q)) /\
       keeps (inm (rb xt 0 kb)) m m1 /\ malloc m1 xt)).
    + split; [reflexivity|]. split; [|split; [exact K0'|exact Ha0]]. intros o j Ho Hj. specialize (Hc0 o j). rewrite rb_ma in Hc0. apply Hc0; assumption.
    + intros i off m1 [_ Hi] (-> & HI & K1' & Ha1). cbn in Hi. destruct (nth_ex l i Hi) as [s Hsi].
      assert (K1 : keeps (inm xt) m m1) by (eapply rb_keeps; [|exact K1']; lia).
      rewrite (sget_map _ _ _ _ Hsi). cbn [bind fst snd]. destruct (nth_in _ _ _ Hsi) as [_ Hin].
      assert (Hr1 : nsum i (at_ cb_size l) + cb_size s <= csz t) by apply (son_room cb' i s Hok Hsi).
      assert (Hr2 : k + cb_kbranch s <= kb) by apply (cbok_kbranch cb' s Hok Hin).
      destruct (cbok_son cb' s Hok Hin) as (Hoks & E1 & E2). cbn [cb_k cb'] in E2. pose proof (cbok_kbranch_k s Hoks) as Hks.
      assert (DE : disj (inm (cb_E s)) (inm xt)) by (intros a Ha'; apply D2; eapply incb_E; eauto).
      rewrite (cbok_tsz cb' i s Hok Hsi : tson_size t i = _). cbn [bind].
      apply wp_bind, wp_init_sub_amatrix; [lia|lia|]. apply wp_bind, wp_init_sub_amatrix; [lia|lia|]. apply wp_bind.
      eapply (IH s Hin R W (rb x (nsum i (at_ cb_size l)) (cb_size s)) (rb xt k (cb_kbranch s)) (fun p j => X (nsum i (at_ cb_size l) + p)%nat j)).
      * exact Hoks.
      * eapply cbinit_keeps; [eapply cbinit_son; [exact Hini|exact Hin]|exact K1|]. apply (son_disj _ cb' s Hin D2).
      * cbn; lia.
      * apply mwf_subm; [exact Hwf|lia].
      * apply rb_malloc; [exact Ha1|lia].
      * reflexivity.
      * exact Ecp.
      * apply (mval_subm m1 x X (nsum i (at_ cb_size l)) (cb_size s) 0 (mcols x)); [|lia|lia]. eapply mval_keeps; [exact Hs|exact K1|exact D1].
      * apply disj_rb; [lia|]. apply rb_disj; [lia|exact D1].
      * apply rb_disj; [lia|]. apply (son_disj _ cb' s Hin D2).
      * apply (son_w _ _ cb' s Hin R1).
      * apply rb_r; [lia|exact R2].
      * apply rb_w; [lia|exact W1].
      * intros m2 Hv2 Hal2 Hk2'.
        assert (Hk2 : keeps (inm (rb xt k (cb_kbranch s))) m1 m2) by (eapply rb_keeps; [|exact Hk2']; cbn; lia).
        assert (K2' : keeps (inm (rb xt 0 kb)) m m2) by (eapply keeps_trans; [exact K1'|eapply SUB; [|exact Hk2]; lia]).
        assert (K2 : keeps (inm xt) m m2) by (eapply rb_keeps; [|exact K2']; lia).
        assert (EU : forall A, mown A = false -> uninit_amatrix A = @Ret K unit tt) by (intros A HA; unfold uninit_amatrix; rewrite HA; reflexivity).
        rewrite !EU by reflexivity. cbn [bind wp].
        apply wp_bind, wp_init_sub_amatrix; [lia|lia|]. apply wp_bind.
        assert (Hv2' : mval m2 (rb xt k (cb_k s)) (fun q j => fwdc (cbmat m1) s (fun p => X (nsum i (at_ cb_size l) + p)%nat j) q)).
        { intros q j Hq Hj. specialize (Hv2 q j Hq Hj). rewrite rb_ma in Hv2 |- *. rewrite rb_ma in Hv2. exact Hv2. }
        eapply (wp_addmul_amatrix L R W f1 true (cb_E s) false (rb xt k (cb_k s)) (rb xt 0 k) (mfun m (cb_E s)) _ (fun q j => fwd_part m cb' (fun p => X p j) i q)).
        { apply mwf_subm; [exact Hwf|lia]. }
        { eapply mval_keeps; [exact (cbinit_E m cb' s Hini Hin)|exact K2|exact DE]. }
        { exact Hv2'. }
        { intros q j Hq Hj. cbn in Hq, Hj. rewrite rb_ma. cbn [Nat.add]. rewrite (proj2 Hk2) by (apply rb_notin; [exact Hwf|lia..]). apply HI; assumption. }
        { apply rb_disj; [lia|exact DE]. }
        { apply rb_sep; [exact Hwf|lia..]. }
        { intros a Ha'. apply R1. eapply incb_E; eauto. }
        { apply rb_wr; [lia|exact W1]. }
        { apply rb_w; [lia|exact W1]. }
        { cbn; lia. }
        { cbn; lia. }
        { cbn; lia. }
        intros m3 Hv3 Hk3. cbn [uninit_amatrix mown subm bind wp nsum]. rewrite (at_nth _ _ _ _ Hsi).
        split; [reflexivity|]. split; [|split].
        -- intros q j Hq Hj. specialize (Hv3 q j). rewrite rb_ma in Hv3. cbn [Nat.add] in Hv3. rewrite Hv3 by (cbn; lia). cbn [tr mcols subm]. rewrite E2.
           pose proof Hq as Hq'. pose proof Hj as Hj'. apply Nat.ltb_lt in Hq', Hj'. rewrite Hq', Hj'. cbn [andb]. f_equal. unfold fwd_part. cbn [sum]. cbn [cb_son cb'].
           rewrite (onth_nth _ _ _ _ Hsi), E1. rewrite (sum_ext (cb_k s) _ (fun r => fconj (mfun m (cb_E s) r q) * fwdc (cbmat m) s (shiftv (fun p => X p j) (nsum i (at_ cb_size l))) r)%F); [ring|].
           intros r Hr. f_equal. unfold fwdc. apply sum_ext. intros p Hp. f_equal. f_equal.
           apply (cbmat_son_keeps m m1 cb' s (inm xt) Hin K1 D2 0 0 s (nodes_self s) p r Hp Hr).
        -- eapply keeps_trans; [exact K2'|eapply SUB; [|exact Hk3]; cbn; lia].
        -- eapply (rb_malloc_keeps m2); [exact Hwf| | |eapply mval_malloc; exact Hv3|exact Hk3]; [lia|]. eapply (rb_malloc_keeps m1); [exact Hwf| |exact Ha1|exact Hal2|exact Hk2]. lia.
    + intros off m1 (-> & HI & K1 & Ha1). cbn [Nat.add] in HI |- *. wstep. cbn [uninit_amatrix mown subm wp]. apply HQ; [|exact Ha1|exact K1].
      intros q j Hq Hj. cbn in Hq, Hj. rewrite rb_ma. cbn [Nat.add]. rewrite HI by assumption. f_equal. symmetry. apply (fwdc_node L); assumption.
Qed.

Lemma wp_expandm cb : forall R W Yt Yp C B m (Q : unit -> mem K -> Prop),
  cbok cb -> cbinit m cb -> mrows Yt = cb_kbranch cb -> mwf Yt -> malloc m Yt -> mval m (rb Yt 0 (cb_k cb)) C -> mrows Yp = cb_size cb -> mcols Yp = mcols Yt -> mwf Yp -> mval m Yp B ->
  disj (inm Yt) (inm Yp) -> disj (incb cb) (inm Yt) -> disj (incb cb) (inm Yp) -> rdok R W (incb cb) -> wrok W (inm Yt) -> wrok W (inm Yp) ->
  (forall m', mval m' Yp (fun p j => B p j + sum (cb_k cb) (fun q => cbmat m cb p q * C q j))%F -> mval m' (rb Yt 0 (cb_k cb)) C -> malloc m' Yt ->
     keeps (fun a => inm Yt a \/ inm Yp a) m m' -> Q tt m') ->
  wp R W (expand_clusterbasis_amatrix cb Yt Yp) m Q.
Proof.
  induction cb as [cb IH] using cb_rect'. intros R W yt yp C B m Q Hok Hini Ex Hwt Ha HC Exp Ecp Hwp HB D1 D2 D3 R1 W1 W2 HQ.
  destruct cb as [t k kt kb V E l Z] eqn:Ecb. cbn [expand_clusterbasis_amatrix].
  assert (Hkk : k <= kb) by exact (cbok_kbranch_k _ Hok). change (mrows yp = csz t) in Exp.
  cbn [cb_kbranch] in Ex. cbn [cb_k] in HQ, HC. wstep.
  apply wp_bind, wp_init_sub_amatrix; [lia|lia|].
  assert (Dyt : disj (inm yp) (inm yt)) by (intros a H1 H2; exact (D1 a H2 H1)).
  destruct l as [|s0 l0].
  - destruct (cbok_leaf_inv _ _ _ _ _ _ _ Hok) as (-> & -> & EV1 & EV2).
    assert (D4 : disj (inm V) (inm yp)) by (intros a Ha'; apply D3; constructor; exact Ha').
    apply wp_bind.
    eapply (wp_addmul_amatrix L R W f1 false V false (rb yt 0 k) yp (mfun m V) C B).
    { exact Hwp. }
    { eapply cbinit_V; exact Hini. }
    { exact HC. }
    { exact HB. }
    { exact D4. }
    { apply disj_rb; [lia|exact D1]. }
    { intros a Ha'. apply R1. constructor. exact Ha'. }
    { apply rb_wr; [lia|exact W1]. }
    { exact W2. }
    { cbn; lia. }
    { cbn; lia. }
    { cbn; lia. }
    intros m2 Hv2 K2. cbn [uninit_amatrix mown subm wp]. apply HQ.
    + eapply mval_ext'; [exact Hv2|]. intros p j Hp Hj. cbv beta. cbn [tr mcols subm]. rewrite EV1, EV2. destruct (Nat.ltb_spec p (csz t)); [|lia]. destruct (Nat.ltb_spec j (mcols yt)); [|lia].
      cbn [andb]. rewrite (cbmat_leaf m) by reflexivity. cbn [cb_V]. ring.
    + eapply mval_keeps; [exact HC|exact K2|]. apply disj_rb; [lia|exact D1].
    + eapply malloc_keeps; [exact Ha|exact K2|exact D1].
    + eapply keeps_mono; [|exact K2]. intros a Ha'. right. exact Ha'.
  - remember (s0 :: l0) as l eqn:El. assert (Hln : l <> []) by (subst l; discriminate).
    pose (cb' := CB t k kt kb V E l Z). fold cb' in Hok, Hini, D2, D3, R1, HQ, IH.
    pose proof (cbok_size cb' Hok Hln) as Esz. change (csz t = nsum (length l) (at_ cb_size l)) in Esz.
    pose (W2' := fun a => inm yt a \/ inm yp a). fold W2' in HQ.
    assert (D4 : disj (incb cb') W2') by (intros a Hx [Hy|Hy]; [apply (D2 a Hx Hy)|apply (D3 a Hx Hy)]).
    apply wp_bind. rewrite El. cbv zeta. rewrite <- El. apply wp_bind. unfold sons. rewrite map_length.
    apply (wp_forS (fun i off m1 => off = nsum i (at_ cb_size l) /\ mval m1 (rb yt 0 k) C /\ malloc m1 yt /\ keeps W2' m m1 /\
      mval m1 yp (fun p j => if p <? nsum i (at_ cb_size l) then B p j + sum k (fun q => cbmat m cb' p q * C q j) else B p j)%F)).
    + split; [reflexivity|]. split; [exact HC|]. split; [exact Ha|]. split; [apply keeps_refl|]. exact HB.
    + intros i off m1 [_ Hi] (-> & HC1 & Ha1 & K1 & HB1). cbn in Hi. destruct (nth_ex l i Hi) as [s Hsi].
      rewrite (sget_map _ _ _ _ Hsi). cbn [bind fst snd]. destruct (nth_in _ _ _ Hsi) as [_ Hin].
      assert (Hr1 : nsum i (at_ cb_size l) + cb_size s <= csz t) by apply (son_room cb' i s Hok Hsi).
      assert (Hr2 : k + cb_kbranch s <= kb) by apply (cbok_kbranch cb' s Hok Hin).
      destruct (cbok_son cb' s Hok Hin) as (Hoks & E1 & E2). cbn [cb_k cb'] in E2. pose proof (cbok_kbranch_k s Hoks) as Hks.
      assert (DE : disj (inm (cb_E s)) W2') by (intros a Ha'; apply D4; eapply incb_E; eauto).
      assert (D4s : disj (incb s) W2') by (apply (son_disj _ cb' s Hin D4)).
      set (po := nsum i (at_ cb_size l)) in *.
      apply wp_bind, wp_init_sub_amatrix; [lia|lia|]. apply wp_bind.
      apply wp_clear_amatrix; [apply mwf_subm; [exact Hwt|lia]|apply rb_malloc; [exact Ha1|lia]|apply rb_w; [lia|exact W1]|].
      intros m2 Hv2 Hk2. apply wp_bind.
      assert (K2 : keeps (inm yt) m1 m2) by (eapply rb_keeps; [|exact Hk2]; lia).
      assert (K2' : keeps W2' m m2) by (eapply keeps_trans; [exact K1|]; eapply keeps_mono; [|exact K2]; intros; left; assumption).
      assert (Ha2 : malloc m2 yt) by (eapply rb_malloc_keeps; [exact Hwt| |exact Ha1|eapply mval_malloc; exact Hv2|exact Hk2]; lia).
      assert (HC2 : mval m2 (rb yt 0 k) C) by (eapply mval_keeps; [exact HC1|exact Hk2|apply rb_sep; [exact Hwt|lia..]]).
      eapply (wp_addmul_amatrix L R W f1 false (cb_E s) false (rb yt 0 k) (rb yt k (cb_k s)) (mfun m (cb_E s)) C (fun _ _ => f0)).
      { apply mwf_subm; [exact Hwt|lia]. }
      { eapply mval_keeps; [exact (cbinit_E m cb' s Hini Hin)|exact K2'|exact DE]. }
      { exact HC2. }
      { exact Hv2. }
      { apply rb_disj; [lia|]. intros a H1 H2. apply (DE a H1). left. exact H2. }
      { apply rb_sep; [exact Hwt|lia..]. }
      { intros a Ha'. apply R1. eapply incb_E; eauto. }
      { apply rb_wr; [lia|exact W1]. }
      { apply rb_w; [lia|exact W1]. }
      { cbn; lia. }
      { cbn; lia. }
      { cbn; lia. }
      intros m3 Hv3 Hk3. cbn [uninit_amatrix mown subm bind wp].
      assert (K3 : keeps (inm yt) m2 m3) by (eapply rb_keeps; [|exact Hk3]; lia).
      assert (K3' : keeps W2' m m3) by (eapply keeps_trans; [exact K2'|]; eapply keeps_mono; [|exact K3]; intros; left; assumption).
      assert (Ha3 : malloc m3 yt) by (eapply rb_malloc_keeps; [exact Hwt| |exact Ha2|eapply mval_malloc; exact Hv3|exact Hk3]; lia).
      assert (HC3 : mval m3 (rb yt 0 k) C) by (eapply mval_keeps; [exact HC2|exact Hk3|apply rb_sep; [exact Hwt|lia..]]).
      assert (HB3 : mval m3 yp (fun p j => if p <? po then B p j + sum k (fun q => cbmat m cb' p q * C q j) else B p j)%F).
      { eapply mval_keeps; [|exact K3|exact Dyt]. eapply mval_keeps; [exact HB1|exact K2|exact Dyt]. }
      apply wp_bind, wp_init_sub_amatrix; [lia|lia|]. apply wp_bind, wp_init_sub_amatrix; [lia|lia|]. apply wp_bind. rewrite <- Ecp.
      eapply (IH s Hin R W (subm yt k (cb_kbranch s) 0 (mcols yp)) (rb yp po (cb_size s)) (fun q j => sum k (fun r => mfun m (cb_E s) q r * C r j))%F (fun p j => B (po + p)%nat j)); rewrite ?Ecp.
      * exact Hoks.
      * eapply cbinit_keeps; [eapply cbinit_son; [exact Hini|exact Hin]|exact K3'|exact D4s].
      * reflexivity.
      * apply mwf_subm; [exact Hwt|lia].
      * apply rb_malloc; [exact Ha3|lia].
      * intros q j Hq Hj. cbn in Hq, Hj. specialize (Hv3 q j). rewrite !rb_ma in *. cbn [Nat.add]. rewrite Hv3 by (cbn; lia). cbn [tr mcols subm]. rewrite E1, E2.
        apply Nat.ltb_lt in Hq, Hj. rewrite Hq, Hj. cbn [andb]. f_equal. ring.
      * reflexivity.
      * reflexivity.
      * apply mwf_subm; [exact Hwp|lia].
      * intros p j Hp Hj. cbn in Hp, Hj. specialize (HB3 (po + p) j). rewrite ma_subm. cbn [Nat.add]. rewrite HB3 by lia. destruct (Nat.ltb_spec (po + p) po); [lia|reflexivity].
      * apply disj_rb; [lia|]. rewrite <- Ecp. apply rb_disj; [lia|exact D1].
      * apply rb_disj; [lia|]. intros a Ha' Hb. apply (D4s a Ha'). left. exact Hb.
      * rewrite <- Ecp. apply rb_disj; [lia|]. intros a Ha' Hb. apply (D4s a Ha'). right. exact Hb.
      * apply (son_w _ _ cb' s Hin R1).
      * apply rb_w; [lia|exact W1].
      * rewrite <- Ecp. apply rb_w; [lia|exact W2].
      * intros m4 Hg4 _ Ha4 Hk4. cbn [uninit_amatrix mown subm bind wp nsum]. rewrite !(at_nth _ _ _ _ Hsi). fold po.
        assert (K4 : keeps W2' m3 m4). { eapply keeps_mono; [|exact Hk4]. intros a [Hb|Hb]; [left|right]; (eapply inm_subm; [| |exact Hb]; lia). }
        assert (G1 : forall q j, q < kb -> j < mcols yt -> q < k \/ k + cb_kbranch s <= q -> get m4 (ma yt q j) = get m3 (ma yt q j)).
        { intros q j Hq Hj Hc. apply (proj2 Hk4). rewrite ?Ecp. intros [Hb|Hb]; [revert Hb; apply rb_notin; [exact Hwt|lia..]|].
          apply (D1 (ma yt q j)); [apply inm_ma; lia|eapply inm_subm; [| |exact Hb]; lia]. }
        assert (G2 : forall p j, p < csz t -> j < mcols yt -> p < po \/ po + cb_size s <= p -> get m4 (ma yp p j) = get m3 (ma yp p j)).
        { intros p j Hp Hj Hc. apply (proj2 Hk4). intros [Hb|Hb]; [|revert Hb; rewrite <- ?Ecp; apply rb_notin; [exact Hwp|lia..]].
          apply (D1 (ma yp p j)); [eapply inm_subm; [| |exact Hb]; lia|apply inm_ma; lia]. }
        split; [reflexivity|]. split; [|split; [|split]].
        -- intros q j Hq Hj. cbn in Hq, Hj. rewrite rb_ma. cbn [Nat.add]. rewrite G1 by lia. specialize (HC3 q j Hq Hj). rewrite rb_ma in HC3. exact HC3.
        -- intros q j Hq Hj. destruct (Nat.lt_ge_cases q k); [rewrite G1 by lia; apply Ha3; lia|].
           destruct (Nat.lt_ge_cases q (k + cb_kbranch s)); [|rewrite G1 by lia; apply Ha3; lia].
           specialize (Ha4 (q - k) j). rewrite ma_subm in Ha4. cbn [Nat.add] in Ha4. replace (k + (q - k)) with q in Ha4 by lia. apply Ha4; cbn; lia.
        -- eapply keeps_trans; [exact K3'|exact K4].
        -- intros p j Hp Hj. destruct (Nat.lt_ge_cases p po).
           ++ rewrite G2 by lia. rewrite (HB3 p j) by lia. destruct (Nat.ltb_spec p po), (Nat.ltb_spec p (po + cb_size s)); try lia. reflexivity.
           ++ destruct (Nat.lt_ge_cases p (po + cb_size s)).
              ** destruct (Nat.ltb_spec p (po + cb_size s)); [|lia]. specialize (Hg4 (p - po) j). rewrite ma_subm in Hg4. cbn [Nat.add] in Hg4. cbv beta in Hg4.
                 replace (po + (p - po)) with p in Hg4 by lia. rewrite Hg4 by (cbn; lia). f_equal. f_equal.
                 pose proof (fun q => cbmat_node m cb' i s (p - po) q Hsi ltac:(lia)) as HT. cbn [cb_son cb'] in HT. fold po in HT.
                 replace (po + (p - po)) with p in HT by lia. change (CB t k kt kb V E l Z) with cb' in HT.
                 rewrite (sum_ext k (fun q => (cbmat m cb' p q * C q j)%F) (fun q => sum (cb_k s) (fun r => cbmat m s (p - po)%nat r * mfun m (cb_E s) r q * C q j)%F)).
                 2:{ intros q Hq. rewrite HT, <- (sum_mul_r L). reflexivity. }
                 rewrite (sum_swap L). apply sum_ext. intros r Hr. 
                 rewrite (cbmat_son_keeps m m3 cb' s W2' Hin K3' D4 0 0 s (nodes_self s) (p - po) r ltac:(lia) Hr).
                 symmetry. etransitivity; [apply (sum_ext k _ (fun q => cbmat m s (p - po)%nat r * (mfun m (cb_E s) r q * C q j))%F); intros; ring|].
                 rewrite (sum_mul_l L). reflexivity.
              ** rewrite G2 by lia. rewrite (HB3 p j) by lia. destruct (Nat.ltb_spec p po), (Nat.ltb_spec p (po + cb_size s)); try lia. reflexivity.
    + intros off m1 (-> & HC1 & Ha1 & K1 & HB1). cbn [Nat.add] in HB1 |- *. wstep. cbn [uninit_amatrix mown subm wp]. apply HQ; [|exact HC1|exact Ha1|exact K1].
      eapply mval_ext'; [exact HB1|]. intros p j Hp Hj; cbv beta. destruct (Nat.ltb_spec p (nsum (length l) (at_ cb_size l))); [reflexivity|lia].
Qed.
End P10.
