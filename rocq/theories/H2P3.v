(** * Products of adjoint H2-matrices and vectors, permutations *)
From Coq Require Import Arith Lia List Bool Ring.
From Verif Require Import Fld Ord Prog Arr View Loop Spec Cluster Block Avector AvectorP Amatrix AmatrixP AmatrixP2 Hmatrix HmSpec HmP HmP2
  Clusterbasis CbSpec CbP CbP2 CbP3 CbP4 H2matrix H2Spec H2P H2P2 CbP6 NormP.
Import ListNotations.

Section H2P3.
Context {K : fops} {G : ofops} (L : ring_laws K).
Add Ring KringH23 : (rl_ring K L).
Implicit Types (m : mem K) (R W : addr -> Prop) (h : h2matrix G) (cb rb : cbasis G) (M : cbasis G -> nat -> nat -> K)
  (D : nat -> nat -> K) (X Y : nat -> K).

Lemma part_fun cb n i (s t : cbasis G) : part_of cb n i s -> part_of cb n i t -> s = t.
Proof.
  intros [(A1 & A2 & A3)|(A1 & A2)] [(B1 & B2 & B3)|(B1 & B2)]; try congruence.
  - rewrite A1 in B2. destruct i; discriminate B2.
  - rewrite B1 in A2. destruct i; discriminate A2.
Qed.

Lemma wp_fasttrans2 M h : forall R W alpha (xt yt : vec) D X Xt Y m (Q : unit -> mem K -> Prop),
  h2rep M m h D -> h2strict h -> cbok (h2_rb h) -> cbok (h2_cb h) -> vval m xt Xt -> vval m yt Y ->
  vdim xt = cb_ktree (h2_rb h) -> vdim yt = cb_ktree (h2_cb h) -> fwd_of M (h2_rb h) X Xt ->
  disj (inv xt) (inv yt) -> disj (inh2 h) (inv yt) -> rdok R W (inh2 h) -> rdok R W (inv xt) -> wrok W (inv yt) ->
  (forall m' Y', vval m' yt Y' ->
     (forall p, p < h2cols h -> bwd_of M (h2_cb h) Y' p = bwd_of M (h2_cb h) Y p + alpha * mvec (h2rows h) (tr true D) X p)%F ->
     keeps (inv yt) m m' -> Q tt m') ->
  wp R W (fastaddevaltrans_h2matrix_avector alpha h xt yt) m Q.
Proof.
  induction h as [h IH] using h2_rect'. intros R W alpha xt yt D X Xt Y m Q Hrep Hst Hr Hc Hx Hy Ex Ey HF Dxy Dhy Rh Rx Wy HQ.
  destruct Hrep as [rb cb A Su ds D P1 P2 P3 P4|rb cb F ds D P1 P2 P3|rb cb ds D P1|rb cb l rsons csons ds hs ws D P1 P2 P3 P4 P5 P6 P7];
    cbn [fastaddevaltrans_h2matrix_avector]; unfold h2rows, h2cols in HQ; cbn [h2_rb h2_cb] in *.
  - change (wp R W (mvm_amatrix_avector alpha true A xt yt) m Q).
    eapply (wp_coupling L true R W alpha A xt yt M rb cb); eauto.
    + intros a Ha. apply Dhy. eapply inh2_u; [reflexivity|exact Ha].
    + intros a Ha. apply Rh. eapply inh2_u; [reflexivity|exact Ha].
  - inversion Hst as [|? ? ? ? L1 L2| |]; subst. pose proof (cbok_ktree rb Hr) as Kr. pose proof (cbok_ktree cb Hc) as Kc.
    unfold cb_leaf in Kr, Kc. rewrite L1 in Kr. rewrite L2 in Kc.
    apply wp_bind, wp_init_sub_avector; [lia|]. apply wp_bind, wp_init_sub_avector; [lia|]. apply wp_bind.
    change (addevaltrans_amatrix_avector alpha F) with (mvm_amatrix_avector alpha true F).
    eapply (wp_dense L true R W alpha F xt yt M rb cb); eauto.
    + intros a Ha. apply Dhy. eapply inh2_f; [reflexivity|exact Ha].
    + intros a Ha. apply Rh. eapply inh2_f; [reflexivity|exact Ha].
  - cbn [wp]. eapply HQ; [exact Hy| |apply keeps_refl]. intros p Hp. unfold mvec. rewrite (sum_0 L); [ring|].
    intros q Hq. unfold tr. rewrite P1 by assumption. rewrite (fconj_0 L). ring.
  - inversion Hst as [| | |? ? ? ? ? ? HS]; subst.
    assert (Hnth : forall i j, i < rsons -> j < csons -> exists s, nth_error l (i + j * rsons) = Some s).
    { intros i j Hi Hj. apply nth_ex. rewrite P3. apply pos_lt; assumption. }
    assert (HPr : forall i, i < rsons -> exists s, part_of rb rsons i s /\ cb_size s = hs i).
    { intros i Hi. destruct (Hnth i 0 Hi P2) as [s Hs]. exists (h2_rb s). destruct (HS i 0 s Hi P2 Hs) as (A & _). split; [exact A|]. apply (P6 i 0 s Hi P2 Hs). }
    assert (HPc : forall j, j < csons -> exists s, part_of cb csons j s /\ cb_size s = ws j).
    { intros j Hj. destruct (Hnth 0 j P1 Hj) as [s Hs]. exists (h2_cb s). destruct (HS 0 j s P1 Hj Hs) as (_ & A & _). split; [exact A|]. apply (P6 0 j s P1 Hj Hs). }
    pose proof (part_prow rb rsons hs HPr) as Eh. pose proof (part_prow cb csons ws HPc) as Ew.
    cbv zeta. rewrite <- (noff_0 cb), <- (noff_0 rb).
    apply wp_bind.
    apply (wp_forS (fun j yoff m1 => yoff = noff cb j /\ exists Y1, vval m1 yt Y1 /\
      (forall p, p < cb_size cb -> bwd_of M cb Y1 p = bwd_of M cb Y p + alpha * mvec (if p <? nsum j ws then cb_size rb else 0) (tr true D) X p)%F /\ keeps (inv yt) m m1)).
    + split; [reflexivity|]. exists Y. split; [exact Hy|]. split; [|apply keeps_refl]. intros p Hp. cbn [nsum]. destruct (Nat.ltb_spec p 0); [lia|]. unfold mvec. cbn [sum]. ring.
    + intros j yoff m1 [_ Hj] (-> & Y1 & Hy1 & HB1 & Hk1). cbn in Hj.
      destruct (HPc j Hj) as (cs & Hcs & Ecs).
      apply wp_bind. eapply wp_h2_part; [exact Hc|exact Hj|exact Hcs|exact Ey|].
      pose proof (part_room cb csons j cs Hc Hj Hcs) as Bc. pose proof (nsum_in ws j csons Hj) as Bj.
      apply wp_bind.
      apply (wp_forS (fun i xoff m2 => xoff = noff rb i /\ exists Y2, vval m2 yt Y2 /\
        (forall p, p < cb_size cb -> bwd_of M cb Y2 p = bwd_of M cb Y p + alpha * mvec (if p <? nsum j ws then cb_size rb else if p <? nsum (S j) ws then nsum i hs else 0) (tr true D) X p)%F /\ keeps (inv yt) m m2)).
      * split; [reflexivity|]. exists Y1. split; [exact Hy1|]. split; [|exact Hk1]. intros p Hp. rewrite HB1 by exact Hp. cbn [nsum].
        destruct (p <? nsum j ws), (p <? nsum j ws + ws j); reflexivity.
      * intros i xoff m2 [_ Hi] (-> & Y2 & Hy2 & HB2 & Hk2). cbn in Hi.
        destruct (HPr i Hi) as (rs & Hrs & Ers).
        apply wp_bind. eapply wp_h2_part; [exact Hr|exact Hi|exact Hrs|exact Ex|].
        pose proof (part_room rb rsons i rs Hr Hi Hrs) as Br.
        destruct (Hnth i j Hi Hj) as [s Hs]. destruct (HS i j s Hi Hj Hs) as (Sr & Sc & Ss). destruct (P6 i j s Hi Hj Hs) as [Er Ec].
        pose proof (part_fun _ _ _ _ _ Sr Hrs) as Ers'. pose proof (part_fun _ _ _ _ _ Sc Hcs) as Ecs'.
        rewrite (sget_map _ _ _ _ Hs). cbn [bind]. apply wp_bind.
        assert (Dhy' : disj (inh2 s) (inv yt)) by (intros a Ha; apply Dhy; eapply inh2_sub; eauto).
        eapply (IH l s eq_refl (nth_error_In _ _ Hs)) with (xt := subv xt (pcol rb i) (cb_ktree rs)) (yt := subv yt (pcol cb j) (cb_ktree cs))
          (X := shiftv X (prow rb i)).
        -- eapply h2rep_keeps; [exact (P7 i j s Hi Hj Hs)|exact Hk2|exact Dhy'].
        -- exact Ss.
        -- rewrite Ers'. eapply part_ok; [exact Hr|exact Hrs].
        -- rewrite Ecs'. eapply part_ok; [exact Hc|exact Hcs].
        -- apply vval_subv; [|lia]. eapply vval_keeps; [exact Hx|exact Hk2|exact Dxy].
        -- apply vval_subv; [exact Hy2|lia].
        -- rewrite Ers'. reflexivity.
        -- rewrite Ecs'. reflexivity.
        -- rewrite Ers'. exact (fwd_part_of M rb rsons i rs X Xt Hi Hrs HF).
        -- apply disj_subv; [lia|]. apply (subv_disj xt); [lia|exact Dxy].
        -- apply (subv_disj xt); [lia|exact Dhy'].
        -- intros a Ha. apply Rh. eapply inh2_sub; eauto.
        -- intros a Ha. apply Rx. eapply inv_subv; [|exact Ha]. lia.
        -- intros a Ha. apply Wy. eapply inv_subv; [|exact Ha]. lia.
        -- intros m3 Y3 Hy3 HB3 Hk3. cbn [uninit_avector vown subv bind]. rewrite (h2_next_eq rb rsons i rs Hi Hrs). cbn [wp].
           split; [reflexivity|]. eexists. split; [eapply vval_subv_back; [exact Hy2| |exact Hy3|exact Hk3]; lia|].
           split; [|eapply keeps_trans; [exact Hk2|eapply keeps_subv; [|exact Hk3]; lia]].
           intros p Hp.
           rewrite (bwd_part_of L M cb csons j cs Y2 _ (fun p => alpha * mvec (h2rows s) (tr true (fun p q => D (nsum i hs + p)%nat (nsum j ws + q)%nat)) (shiftv X (prow rb i)) p)%F Hc Hj Hcs).
           ++ rewrite <- Ew by lia. rewrite Ecs. cbn [nsum].
              destruct (Nat.leb_spec (nsum j ws) p) as [Hlo|Hlo]; cbn [andb].
              ** destruct (Nat.ltb_spec p (nsum j ws + ws j)) as [Hhi|Hhi].
                 --- rewrite HB2 by exact Hp. destruct (Nat.ltb_spec p (nsum j ws)); [lia|]. cbn [nsum]. destruct (Nat.ltb_spec p (nsum j ws + ws j)); [|lia].
                     rewrite (mvec_app L). unfold mvec. rewrite Er. unfold tr. replace (nsum j ws + (p - nsum j ws)) with p by lia. unfold shiftv. rewrite <- Eh by lia. ring.
                 --- rewrite HB2 by exact Hp. destruct (Nat.ltb_spec p (nsum j ws)); [lia|]. cbn [nsum]. destruct (Nat.ltb_spec p (nsum j ws + ws j)); [lia|reflexivity].
              ** rewrite HB2 by exact Hp. destruct (Nat.ltb_spec p (nsum j ws)); [|lia]. reflexivity.
           ++ intros o Ho Ho'. destruct (Nat.leb_spec (pcol cb j) o); [|reflexivity]. destruct (Nat.ltb_spec o (pcol cb j + cb_ktree cs)); [lia|reflexivity].
           ++ intros p' Hp''. unfold h2cols in HB3. rewrite Ecs' in HB3. rewrite <- HB3 by exact Hp''.
              apply bwd_ext; [eapply part_ok; [exact Hc|exact Hcs]|exact Hp''|reflexivity|]. intros q Hq. unfold shiftv.
              destruct (Nat.leb_spec (pcol cb j) (pcol cb j + q)); [|lia]. destruct (Nat.ltb_spec (pcol cb j + q) (pcol cb j + cb_ktree cs)); [|lia].
              cbn [andb]. f_equal. lia.
           ++ exact Hp.
      * intros xoff m2 (-> & Y2 & Hy2 & HB2 & Hk2). cbn [Nat.add] in *.
        destruct (HPr 0 P1) as (r0 & Hr0 & _). rewrite (noff_end rb rsons 0 r0 Hr Hr0). wstep. cbn [uninit_avector vown subv bind].
        rewrite (h2_next_eq cb csons j cs Hj Hcs). cbn [wp].
        split; [reflexivity|]. exists Y2. split; [exact Hy2|]. split; [|exact Hk2]. intros p Hp. rewrite HB2 by exact Hp. rewrite P4. cbn [nsum].
        destruct (Nat.ltb_spec p (nsum j ws)), (Nat.ltb_spec p (nsum j ws + ws j)); try lia; reflexivity.
    + intros yoff m1 (-> & Y1 & Hy1 & HB1 & Hk1). cbn [Nat.add] in *.
      destruct (HPc 0 P2) as (c0 & Hc0 & _). rewrite (noff_end cb csons 0 c0 Hc Hc0). wstep. eapply HQ; [exact Hy1| |exact Hk1].
      intros p Hp. rewrite HB1 by exact Hp. rewrite P5. destruct (Nat.ltb_spec p (cb_size cb)); [reflexivity|lia].
Qed.

(** ** The whole product *)
Lemma fwd_of_keeps (W : addr -> Prop) m m' cb X Y : cbok cb -> keeps W m m' -> disj (incb cb) W ->
  fwd_of (cbmat m') cb X Y -> fwd_of (cbmat m) cb X Y.
Proof.
  intros Hok Hk Hd H o r c Hc. destruct (H o r c Hc) as [H1 H2]. split; [|exact H2]. intros q Hq. rewrite H1 by exact Hq.
  apply sum_ext. intros p Hp. f_equal. f_equal. eapply cbmat_keeps; [exact Hk|]. intros a Ha. apply Hd. eapply incb_node; eauto.
Qed.
Lemma bwd_of_keeps (W : addr -> Prop) m m' cb Y p : cbok cb -> p < cb_size cb -> keeps W m m' -> disj (incb cb) W ->
  bwd_of (cbmat m') cb Y p = bwd_of (cbmat m) cb Y p.
Proof.
  intros Hok Hp Hk Hd. apply bwd_ext; [exact Hok|exact Hp| |reflexivity]. intros o r c Hc p' q' _ _. eapply cbmat_keeps; [exact Hk|].
  intros a Ha. apply Hd. eapply incb_node; eauto.
Qed.
Lemma bwd_of_0 M cb Y p : cbok cb -> (forall o, o < cb_ktree cb -> Y o = f0) -> bwd_of M cb Y p = f0.
Proof.
  intros Hok HY. unfold bwd_of. apply (lsum_0 L). intros a Ha. apply in_map_iff in Ha as ([[o r] c] & <- & Hc).
  destruct (nodes_ok cb Hok o r c Hc) as (B1 & B2 & B3). pose proof (cbok_ktree c B1) as Ek. unfold bwd_term.
  destruct (Nat.leb_spec r p); [|reflexivity]. destruct (Nat.ltb_spec p (r + cb_size c)); [|reflexivity]. cbn [andb].
  rewrite (sum_0 L) by (intros q Hq; rewrite HY by lia; ring). destruct (cb_leaf c) eqn:El; [rewrite HY by lia|]; ring.
Qed.


Lemma wp_untmp2 (R W : addr -> Prop) (xp : vec) b m n (Q : unit -> mem K -> Prop) : xp = Vec b 0 n true -> b < next m ->
  (forall o, W (b, o)) -> Q tt (dealloc m b) -> wp R W (uninit_avector xp) m Q.
Proof. intros -> N HW HQ. unfold uninit_avector. cbn [vown bind pfree wp vblk]. split; [exact N|]. split; [exact HW|exact HQ]. Qed.

Lemma wp_h2_mvm idx1 idx2 (ib ob : cbasis G) (fast : vec -> vec -> prog K unit) (F : addr -> Prop) D R W alpha (x y : vec) ip iq X B m
    (Q : unit -> mem K -> Prop) :
  cbready m ib -> cbready m ob ->
  perm_src idx1 m x (cb_off ib) (cb_size ib) ip X -> perm_trg idx2 m y (cb_off ob) (cb_size ob) iq B -> injn iq (cb_size ob) ->
  vblk x < next m -> vblk y < next m -> (forall a, incb ib a \/ incb ob a \/ F a -> fst a < next m) ->
  disj (incb ob) (cells (fun p => va y (iq p)) (cb_size ob)) ->
  rdok R W (incb ib) -> rdok R W (incb ob) -> rdok R W F -> rdok R W (inv x) -> wrok W (cells (fun p => va y (iq p)) (cb_size ob)) ->
  (forall R W xt yt Xt Y m1 (W1 : addr -> Prop) (Q : unit -> mem K -> Prop), keeps W1 m m1 -> disj F W1 ->
     vval m1 xt Xt -> vval m1 yt Y -> vdim xt = cb_ktree ib -> vdim yt = cb_ktree ob -> fwd_of (cbmat m) ib X Xt ->
     disj (inv xt) (inv yt) -> disj F (inv yt) -> rdok R W F -> rdok R W (inv xt) -> wrok W (inv yt) ->
     (forall m' Y', vval m' yt Y' ->
        (forall p, p < cb_size ob -> bwd_of (cbmat m) ob Y' p = bwd_of (cbmat m) ob Y p + alpha * mvec (cb_size ib) D X p)%F ->
        keeps (inv yt) m1 m' -> Q tt m') ->
     wp R W (fast xt yt) m1 Q) ->
  (forall m', (forall p, p < cb_size ob -> get m' (va y (iq p)) = Val (B p + alpha * mvec (cb_size ib) D X p)%F) ->
     keeps (cells (fun p => va y (iq p)) (cb_size ob)) m m' -> Q tt m') ->
  wp R W (xt <- init_avector (cb_ktree ib) ;;
          yt <- init_avector (cb_ktree ob) ;;
          clear_avector yt ;;;
          forward_clusterbasis_avector idx1 ib x xt ;;;
          fast xt yt ;;;
          backward_clusterbasis_avector idx2 ob yt y ;;;
          uninit_avector yt ;;;
          uninit_avector xt) m Q.
Proof.
  intros (Oi & Pi & Ii) (Oo & Po & Io) Hs Ht Hinj Bx By BF Dob Ri Ro RF Rx Wy Hfast HQ.
  assert (Cy : forall a, cells (fun p => va y (iq p)) (cb_size ob) a -> fst a = vblk y) by (intros a (p & _ & ->); reflexivity).
  apply wp_tmp. intros xt m1 Ext Ha1 N1 K1. apply wp_tmp. intros yt m2 Eyt Ha2 N2 K2.
  set (W2 := fun a => (W a \/ fst a = next m) \/ fst a = next m1).
  assert (K2' : keeps (fun a => next m <= fst a) m m2).
  { eapply keeps_trans; [eapply keeps_mono; [|exact K1]; cbn; lia|]. eapply keeps_mono; [|exact K2]. cbn; lia. }
  assert (Ix : forall a, inv xt a -> fst a = next m) by (intros a Ha'; apply inv_blk in Ha'; rewrite Ha', Ext; reflexivity).
  assert (Iy : forall a, inv yt a -> fst a = next m1) by (intros a Ha'; apply inv_blk in Ha'; rewrite Ha', Eyt; reflexivity).
  assert (Lift : forall P, rdok R W P -> rdok R W2 P).
  { intros P HP a Ha. destruct (HP a Ha); [left; assumption|right; left; left; assumption]. }
  assert (Wx : wrok W2 (inv xt)) by (intros a Ha; left; right; apply Ix, Ha).
  assert (Wt : wrok W2 (inv yt)) by (intros a Ha; right; apply Iy, Ha).
  assert (Dxy : disj (inv xt) (inv yt)) by (intros a H1 H2; apply Ix in H1; apply Iy in H2; lia).
  assert (Exd : vdim xt = cb_ktree ib) by (rewrite Ext; reflexivity). assert (Eyd : vdim yt = cb_ktree ob) by (rewrite Eyt; reflexivity).
  apply wp_bind. eapply wp_clear_avector; [exact Ha2|exact Wt|]. intros m3 Hy3 K3.
  assert (K3' : keeps (fun a => next m <= fst a) m m3).
  { eapply keeps_trans; [exact K2'|]. eapply keeps_mono; [|exact K3]. intros a Ha. apply Iy in Ha. lia. }
  assert (Old : forall P : addr -> Prop, (forall a, P a -> fst a < next m) -> disj P (fun a => next m <= fst a)) by (intros P HP a H1 H2; apply HP in H1; lia).
  assert (Hi3 : cbinit m3 ib) by (eapply cbinit_keeps; [exact Ii|exact K3'|apply Old; intros a Ha; apply BF; auto]).
  apply wp_bind. eapply (wp_forward L idx1 ib) with (X := X); [exact Oi|exact Pi|exact Hi3|exact Exd| | | | | | |exact Wx|].
  { eapply valloc_keeps; [eapply valloc_keeps; [exact Ha1|exact K2|]|exact K3|exact Dxy]. intros a Ha Hb. apply Ix in Ha. lia. }
  { eapply perm_src_keeps; [exact Hs|exact K3'|]. apply Old. intros a Ha. apply inv_blk in Ha. lia. }
  { intros a H1 H2. apply inv_blk in H1. apply Ix in H2. lia. }
  { intros a H1 H2. specialize (BF a (or_introl H1)). apply Ix in H2. lia. }
  { apply Lift, Ri. }
  { apply Lift, Rx. }
  intros m4 Xt Hx4 HF4 K4.
  assert (HF : fwd_of (cbmat m) ib X Xt) by (eapply fwd_of_keeps; [exact Oi|exact K3'| |exact HF4]; apply Old; intros a Ha; apply BF; auto).
  assert (K4' : keeps (fun a => next m <= fst a) m m4).
  { eapply keeps_trans; [exact K3'|]. eapply keeps_mono; [|exact K4]. intros a Ha. apply Ix in Ha. lia. }
  apply wp_bind. eapply (Hfast R W2 xt yt Xt (fun _ => f0) m4); [exact K4'| |exact Hx4| |exact Exd|exact Eyd|exact HF|exact Dxy| | | |exact Wt|].
  { apply Old. intros a Ha. apply BF; auto. }
  { eapply vval_keeps; [exact Hy3|exact K4|]. intros a H1 H2. exact (Dxy a H2 H1). }
  { intros a H1 H2. specialize (BF a (or_intror (or_intror H1))). apply Iy in H2. lia. }
  { apply Lift, RF. }
  { apply rdok_w, Wx. }
  intros m5 Y5 Hy5 HB5 K5.
  assert (K5' : keeps (fun a => next m <= fst a) m m5).
  { eapply keeps_trans; [exact K4'|]. eapply keeps_mono; [|exact K5]. intros a Ha. apply Iy in Ha. lia. }
  assert (Doy : disj (incb ob) (fun a => next m <= fst a)) by (apply Old; intros a Ha; apply BF; auto).
  apply wp_bind. eapply (wp_backward L idx2 ob) with (Y := Y5) (B := B); [exact Oo|exact Po| |exact Eyd|exact Hy5| |exact Hinj| | |exact Dob| |exact Wt| |].
  { eapply cbinit_keeps; [exact Io|exact K5'|exact Doy]. }
  { intros p Hp. destruct (Ht p Hp) as (A1 & A2 & A3). split; [exact A1|]. split; [exact A2|]. rewrite (proj2 K5'); [exact A3|]. cbn; lia. }
  { intros a H1 H2. apply Iy in H1. apply Cy in H2. lia. }
  { intros a H1 H2. specialize (BF a (or_intror (or_introl H1))). apply Iy in H2. lia. }
  { apply Lift, Ro. }
  { intros a Ha. left; left. apply Wy, Ha. }
  intros m6 Hy6 _ K6.
  pose proof (proj1 K3). pose proof (proj1 K4). pose proof (proj1 K5). pose proof (proj1 K6).
  unfold W2. apply wp_bind. eapply wp_untmp2; [exact Eyt|lia|intros o; right; reflexivity|].
  eapply wp_untmp2; [exact Ext|cbn; lia|intros o; left; right; reflexivity|].
  apply HQ.
  - intros p Hp. rewrite !get_dealloc. cbn [fst va]. destruct (Nat.eqb_spec (vblk y) (next m)); [lia|]. destruct (Nat.eqb_spec (vblk y) (next m1)); [lia|].
    rewrite Hy6 by exact Hp. do 2 f_equal. rewrite (bwd_of_keeps _ m m5 ob Y5 p Oo Hp K5' Doy). rewrite HB5 by exact Hp.
    rewrite (bwd_of_0 _ ob _ p Oo) by reflexivity. ring.
  - apply keeps_dealloc; [lia|]. apply keeps_dealloc; [lia|].
    split; [lia|]. intros a Ha. rewrite (proj2 K6). 2:{ intros [Hb|Hb]; apply Ha; [right; apply Iy; exact Hb|left; left; exact Hb]. }
    rewrite (proj2 K5) by (intros Hb; apply Ha; right; apply Iy; exact Hb).
    rewrite (proj2 K4) by (intros Hb; apply Ha; left; right; apply Ix; exact Hb).
    rewrite (proj2 K3) by (intros Hb; apply Ha; right; apply Iy; exact Hb).
    rewrite (proj2 K2) by (intros Hb; apply Ha; right; exact Hb).
    rewrite (proj2 K1) by (intros Hb; apply Ha; left; right; exact Hb). reflexivity.
Qed.

(** ** Products in the original numbering *)
Lemma part_incb cb n i (s : cbasis G) a : part_of cb n i s -> incb s a -> incb cb a.
Proof. intros [(_ & _ & ->)|(_ & H)] Ha; [exact Ha|]. eapply incb_son; [eapply nth_error_In; exact H|exact Ha]. Qed.
Lemma inh2b_sub rb cb l rsons csons ds i j s a : i < rsons -> j < csons -> nth_error l (i + j * rsons) = Some s ->
  h2strict (H2 rb cb None None (Some l) rsons csons ds) -> inh2b s a -> inh2b (H2 rb cb None None (Some l) rsons csons ds) a.
Proof.
  intros Hi Hj Hs Hst [H|[H|H]]; inversion Hst as [| | |? ? ? ? ? ? HS]; subst; destruct (HS i j s Hi Hj Hs) as (Sr & Sc & _).
  - left. eapply inh2_son; [reflexivity|eapply nth_error_In; exact Hs|exact H].
  - right; left. eapply part_incb; eauto.
  - right; right. eapply part_incb; eauto.
Qed.
Lemma h2rep_mem (W : addr -> Prop) m m' h D : h2rep (cbmat m) m h D -> h2strict h -> keeps W m m' -> disj (inh2b h) W -> h2rep (cbmat m') m' h D.
Proof.
  intros H Hst Hk. induction H as [rb cb A Su ds D P1 P2 P3 P4|rb cb F ds D P1 P2 P3|rb cb ds D P1|rb cb l rsons csons ds hs ws D P1 P2 P3 P4 P5 P6 P7 IH];
    intros Hd.
  - eapply h2rep_u; [exact P1|exact P2| |].
    + eapply mval_keeps; eauto. intros a Ha. apply Hd. left. eapply inh2_u; [reflexivity|exact Ha].
    + intros p q Hp Hq. rewrite P4 by assumption. unfold vsw. apply sum_ext. intros r _. apply sum_ext. intros c _.
      rewrite (cbmat_keeps W m m' rb Hk), (cbmat_keeps W m m' cb Hk); [reflexivity| |]; intros a Ha; apply Hd; right; auto.
  - eapply h2rep_f; eauto. eapply mval_keeps; eauto. intros a Ha. apply Hd. left. eapply inh2_f; [reflexivity|exact Ha].
  - apply h2rep_zero; auto.
  - eapply h2rep_super; eauto. intros i j s Hi Hj Hs. apply (IH i j s Hi Hj Hs).
    + inversion Hst as [| | |? ? ? ? ? ? HS]; subst. apply (HS i j s Hi Hj Hs).
    + intros a Ha. apply Hd. eapply inh2b_sub; eauto.
Qed.

Lemma cbready_keeps (W : addr -> Prop) m m' cb : cbready m cb -> keeps W m m' -> disj (incb cb) W -> cbready m' cb.
Proof. intros (A1 & A2 & A3) Hk Hd. split; [exact A1|]. split; [exact A2|]. eapply cbinit_keeps; eauto. Qed.

Lemma h2_orig (y : vec) (B X f g : nat -> K) alpha n1 n2 gi go (A : nat -> nat -> K) m' : n2 = vdim y ->
  (forall p, p < n1 -> gi p < n1) -> (forall i j, i < n1 -> j < n1 -> gi i = gi j -> i = j) ->
  (forall p, p < n2 -> go p < n2) -> (forall i j, i < n2 -> j < n2 -> go i = go j -> i = j) ->
  (forall p, p < n2 -> B p = g (go p)) -> (forall p, p < n1 -> X p = f (gi p)) ->
  (forall p, p < n2 -> get m' (va y (go p)) = Val (B p + alpha * mvec n1 (fun i j => A (go i) (gi j)) X p)%F) ->
  vval m' y (fun i => g i + alpha * mvec n1 A f i)%F.
Proof.
  intros E P1 P2 P3 P4 HB HX H k Hk. rewrite <- E in Hk. destruct (perm_onto n2 go P3 P4 k Hk) as (i & Hi & <-).
  rewrite H by exact Hi. do 2 f_equal; [apply HB; exact Hi|]. f_equal. unfold mvec.
  rewrite <- (sum_perm L n1 gi (fun j => A (go i) j * f j)%F P1 P2). apply sum_ext. intros j Hj. rewrite HX by exact Hj. reflexivity.
Qed.

Lemma wp_h2_mvm_h2 ridx cidx h R W alpha (t : bool) x y A f g m (Q : unit -> mem K -> Prop) :
  h2ready m ridx cidx h A -> vval m x f -> vval m y g ->
  vdim x = (if t then h2rows h else h2cols h) -> vdim y = (if t then h2cols h else h2rows h) ->
  vblk x < next m -> vblk y < next m -> (forall a, inh2b h a -> fst a < next m) ->
  disj (inh2b h) (inv y) -> rdok R W (inh2b h) -> rdok R W (inv x) -> wrok W (inv y) ->
  (forall m', vval m' y (fun i => g i + alpha * mvec (vdim x) (tr t A) f i)%F -> keeps (inv y) m m' -> Q tt m') ->
  wp R W (mvm_h2matrix_avector ridx cidx alpha t h x y) m Q.
Proof.
  intros ((gr & gc & (Pr1 & Pr2 & Pr3) & (Pc1 & Pc2 & Pc3) & Hrep) & Hst & Rr & Rc) Hx Hy Ex Ey Bx By BF Dhy Rh Rx Wy HQ.
  unfold mvm_h2matrix_avector. destruct t.
  - unfold addevaltrans_h2matrix_avector, new_coeffs_clusterbasis_avector.
    assert (Cy : forall a, cells (fun p => va y (gc p)) (h2cols h) a -> inv y a).
    { intros a (p & Hp & ->). exists (gc p). split; [rewrite Ey; apply Pc2, Hp|reflexivity]. }
    eapply (wp_h2_mvm ridx cidx (h2_rb h) (h2_cb h) (fastaddevaltrans_h2matrix_avector alpha h) (inh2 h) (tr true (fun i j => A (gr i) (gc j)))) with
      (ip := gr) (iq := gc) (X := fun p => f (gr p)) (B := fun p => g (gc p)) (alpha := alpha); try assumption.
    + intros p Hp. split; [apply Pr1, Hp|]. split; [rewrite Ex; apply Pr2, Hp|]. apply Hx. rewrite Ex. apply Pr2, Hp.
    + intros p Hp. split; [apply Pc1, Hp|]. split; [rewrite Ey; apply Pc2, Hp|]. apply Hy. rewrite Ey. apply Pc2, Hp.
    + intros a [Ha|[Ha|Ha]]; apply BF; unfold inh2b; auto.
    + intros a Ha Hb. apply (Dhy a); [right; auto|apply Cy, Hb].
    + intros a Ha. apply Rh. unfold inh2b; auto.
    + intros a Ha. apply Rh. unfold inh2b; auto.
    + intros a Ha. apply Rh. unfold inh2b; auto.
    + intros a Ha. apply Wy, Cy, Ha.
    + intros R' W' xt yt Xt Y m1 W1 Q' K1 D1 V1 V2 E1 E2 HF D2 D3 R1 R2 W2 HQ'.
      eapply wp_fasttrans2; [|exact Hst|apply Rr|apply Rc|exact V1|exact V2|exact E1|exact E2|exact HF|exact D2|exact D3|exact R1|exact R2|exact W2|exact HQ'].
      eapply h2rep_keeps; eauto.
    + intros m' Hy' Hk'. apply HQ; [|eapply keeps_mono; [exact Cy|exact Hk']]. rewrite Ex.
      apply (h2_orig y (fun p => g (gc p)) (fun p => f (gr p)) f g alpha (h2rows h) (h2cols h) gr gc (tr true A) m'); auto.
  - unfold addeval_h2matrix_avector, new_coeffs_clusterbasis_avector.
    assert (Cy : forall a, cells (fun p => va y (gr p)) (h2rows h) a -> inv y a).
    { intros a (p & Hp & ->). exists (gr p). split; [rewrite Ey; apply Pr2, Hp|reflexivity]. }
    eapply (wp_h2_mvm cidx ridx (h2_cb h) (h2_rb h) (fastaddeval_h2matrix_avector alpha h) (inh2 h) (fun i j => A (gr i) (gc j))) with
      (ip := gc) (iq := gr) (X := fun p => f (gc p)) (B := fun p => g (gr p)) (alpha := alpha); try assumption.
    + intros p Hp. split; [apply Pc1, Hp|]. split; [rewrite Ex; apply Pc2, Hp|]. apply Hx. rewrite Ex. apply Pc2, Hp.
    + intros p Hp. split; [apply Pr1, Hp|]. split; [rewrite Ey; apply Pr2, Hp|]. apply Hy. rewrite Ey. apply Pr2, Hp.
    + intros a [Ha|[Ha|Ha]]; apply BF; unfold inh2b; auto.
    + intros a Ha Hb. apply (Dhy a); [right; auto|apply Cy, Hb].
    + intros a Ha. apply Rh. unfold inh2b; auto.
    + intros a Ha. apply Rh. unfold inh2b; auto.
    + intros a Ha. apply Rh. unfold inh2b; auto.
    + intros a Ha. apply Wy, Cy, Ha.
    + intros R' W' xt yt Xt Y m1 W1 Q' K1 D1 V1 V2 E1 E2 HF D2 D3 R1 R2 W2 HQ'.
      eapply (wp_fast2 L); [|exact Hst|apply Rr|apply Rc|exact V1|exact V2|exact E1|exact E2|exact HF|exact D2|exact D3|exact R1|exact R2|exact W2|exact HQ'].
      eapply h2rep_keeps; eauto.
    + intros m' Hy' Hk'. apply HQ; [|eapply keeps_mono; [exact Cy|exact Hk']]. rewrite Ex. cbn [tr].
      apply (h2_orig y (fun p => g (gr p)) (fun p => f (gc p)) f g alpha (h2cols h) (h2rows h) gc gr A m'); auto.
Qed.

Lemma h2_mvm_ok ridx cidx h A : mvm_ok (fun alpha t => mvm_h2matrix_avector ridx cidx alpha t h) (h2rows h) (h2cols h) A (tr true A) (inh2b h)
  (fun m => h2ready m ridx cidx h A /\ forall a, inh2b h a -> fst a < next m).
Proof.
  constructor.
  - intros m m' W [((gr & gc & P1 & P2 & P3) & P4 & P5 & P6) P7] Hk Hd. pose proof (proj1 Hk). split; [|intros a Ha; specialize (P7 a Ha); lia].
    split; [|split; [exact P4|split; (eapply cbready_keeps; [eassumption|exact Hk|intros a Ha; apply Hd; unfold inh2b; auto])]].
    exists gr, gc. split; [exact P1|]. split; [exact P2|]. eapply h2rep_mem; eauto.
  - intros R W alpha t x y f g m Q [HI HB] Hr Hx Hy Hdx Hdy Bx By Hxy HFy Hrx Hwy HQ. cbv beta.
    eapply wp_h2_mvm_h2; eauto.
Qed.
End H2P3.
