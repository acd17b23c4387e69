(** * Products of H2-matrices and vectors *)
From Coq Require Import Arith Lia List Bool Ring.
From Verif Require Import Fld Ord Prog Arr View Loop Spec Cluster Block Avector AvectorP Amatrix AmatrixP Hmatrix HmSpec HmP
  Clusterbasis CbSpec CbP CbP2 CbP3 CbP4 H2matrix H2Spec H2P.
Import ListNotations.

Section H2P2.
Context {K : fops} {G : ofops} (L : ring_laws K).
Add Ring KringH22 : (rl_ring K L).
Implicit Types (m : mem K) (R W : addr -> Prop) (h : h2matrix G) (cb rb : cbasis G) (M : cbasis G -> nat -> nat -> K)
  (D : nat -> nat -> K) (X Y : nat -> K).

(** A leaf with coupling matrix [A], and a dense leaf, for coefficient vectors; [t]: the adjoint. *)
Lemma wp_coupling (t : bool) R W alpha A (xt yt : vec) M rb cb Su D X Xt Y m (Q : unit -> mem K -> Prop) :
  let ib := if t then rb else cb in let ob := if t then cb else rb in
  mrows A = cb_k rb -> mcols A = cb_k cb -> mval m A Su ->
  (forall p q, p < cb_size rb -> q < cb_size cb -> D p q = vsw M rb cb Su p q) ->
  cbok rb -> cbok cb -> vval m xt Xt -> vval m yt Y -> vdim xt = cb_ktree ib -> vdim yt = cb_ktree ob -> fwd_of M ib X Xt ->
  disj (inv xt) (inv yt) -> disj (inm A) (inv yt) -> rdok R W (inm A) -> rdok R W (inv xt) -> wrok W (inv yt) ->
  (forall m' Y', vval m' yt Y' ->
     (forall p, p < cb_size ob -> bwd_of M ob Y' p = bwd_of M ob Y p + alpha * mvec (cb_size ib) (tr t D) X p)%F ->
     keeps (inv yt) m m' -> Q tt m') ->
  wp R W (mvm_amatrix_avector alpha t A xt yt) m Q.
Proof.
  intros ib ob E1 E2 HA HD Hr Hc Hx Hy Ex Ey HF Dxy DA RA Rx Wy HQ.
  assert (Hi : cbok ib) by (subst ib; destruct t; assumption). assert (Ho : cbok ob) by (subst ob; destruct t; assumption).
  pose proof (cbok_k_ktree ib Hi). pose proof (cbok_k_ktree ob Ho).
  eapply (wp_mvm_pre R W alpha t A xt yt (cb_k ib) (cb_k ob)); [subst ib; destruct t; auto|subst ob; destruct t; auto|lia|lia|exact HA| | | | | | | |].
  - apply vval_subv; [exact Hx|lia].
  - apply vval_subv; [exact Hy|lia].
  - apply (subv_disj xt); [lia|exact DA].
  - apply disj_subv; [lia|]. apply (subv_disj xt); [lia|exact Dxy].
  - exact RA.
  - intros a Ha. apply Rx. eapply inv_subv; [|exact Ha]. lia.
  - intros a Ha. apply Wy. eapply inv_subv; [|exact Ha]. lia.
  - intros m' Hy' Hk'. eapply HQ; [eapply vval_subv_back; [exact Hy| |exact Hy'|exact Hk']; lia| |eapply keeps_subv; [|exact Hk']; lia].
    intros p Hp. pose proof (bwd_add L M ob Y (fun o => alpha * sum (cb_k ib) (fun j => tr t Su o j * Xt (0 + j)%nat))%F p Ho Hp) as HB.
    etransitivity; [|etransitivity; [exact HB|]].
    + apply bwd_ext; [exact Ho|exact Hp|reflexivity|]. intros q Hq. cbn [Nat.leb andb Nat.add]. rewrite Nat.sub_0_r. reflexivity.
    + f_equal. assert (Em : mvec (cb_size ib) (tr t D) X p = sum (cb_k ob) (fun q => M ob p q * sum (cb_k ib) (fun j => tr t Su q j * Xt j))%F).
      { subst ib ob. destruct t; [eapply (vsw_mvec_trans L); eauto|]. etransitivity; [eapply (vsw_mvec L); eauto|]. reflexivity. }
      rewrite Em. rewrite <- (sum_mul_l L). apply sum_ext. intros q Hq. cbn [Nat.add]. ring.
Qed.
Lemma wp_dense (t : bool) R W alpha A (xt yt : vec) M rb cb D X Xt Y m (Q : unit -> mem K -> Prop) :
  let ib := if t then rb else cb in let ob := if t then cb else rb in
  mrows A = cb_size rb -> mcols A = cb_size cb -> mval m A D -> cb_son rb = [] -> cb_son cb = [] ->
  cbok rb -> cbok cb -> vval m xt Xt -> vval m yt Y -> vdim xt = cb_ktree ib -> vdim yt = cb_ktree ob -> fwd_of M ib X Xt ->
  disj (inv xt) (inv yt) -> disj (inm A) (inv yt) -> rdok R W (inm A) -> rdok R W (inv xt) -> wrok W (inv yt) ->
  (forall m' Y', vval m' yt Y' ->
     (forall p, p < cb_size ob -> bwd_of M ob Y' p = bwd_of M ob Y p + alpha * mvec (cb_size ib) (tr t D) X p)%F ->
     keeps (inv yt) m m' -> Q tt m') ->
  wp R W (mvm_amatrix_avector alpha t A (subv xt (cb_k ib) (cb_size ib)) (subv yt (cb_k ob) (cb_size ob))) m Q.
Proof.
  intros ib ob E1 E2 HA Lr Lc Hr Hc Hx Hy Ex Ey HF Dxy DA RA Rx Wy HQ.
  assert (Hi : cbok ib) by (subst ib; destruct t; assumption). assert (Ho : cbok ob) by (subst ob; destruct t; assumption).
  assert (Li : cb_son ib = []) by (subst ib; destruct t; assumption). assert (Lo : cb_son ob = []) by (subst ob; destruct t; assumption).
  pose proof (cbok_ktree ib Hi) as Ki. pose proof (cbok_ktree ob Ho) as Ko. unfold cb_leaf in Ki, Ko. rewrite Li in Ki. rewrite Lo in Ko.
  eapply wp_mvm_amatrix_avector; [exact HA|apply vval_subv; [exact Hx|lia]|apply vval_subv; [exact Hy|lia]| | | | | | | |].
  - subst ib; destruct t; cbn; lia.
  - subst ob; destruct t; cbn; lia.
  - apply (subv_disj xt); [lia|exact DA].
  - apply disj_subv; [lia|]. apply (subv_disj xt); [lia|exact Dxy].
  - exact RA.
  - intros a Ha. apply Rx. eapply inv_subv; [|exact Ha]. lia.
  - intros a Ha. apply Wy. eapply inv_subv; [|exact Ha]. lia.
  - intros m' Hy' Hk'. eapply HQ; [eapply vval_subv_back; [exact Hy| |exact Hy'|exact Hk']; lia| |eapply keeps_subv; [|exact Hk']; lia].
    intros p Hp. rewrite !(bwd_leaf L) by assumption.
    destruct (Nat.leb_spec (cb_k ob) (cb_k ob + p)); [|lia]. destruct (Nat.ltb_spec (cb_k ob + p) (cb_k ob + cb_size ob)); [|lia]. cbn [andb].
    replace (cb_k ob + p - cb_k ob) with p by lia.
    assert (Eo : (if t then mcols A else mrows A) = cb_size ob) by (subst ob; destruct t; lia). rewrite Eo.
    assert (Ei : (if t then mrows A else mcols A) = cb_size ib) by (subst ib; destruct t; lia). rewrite Ei.
    apply Nat.ltb_lt in Hp as Hp'. rewrite Hp'.
    assert (Em : sum (cb_size ib) (fun j => tr t D p j * Xt (cb_k ib + j)%nat)%F = mvec (cb_size ib) (tr t D) X p).
    { unfold mvec. apply sum_ext. intros q Hq. f_equal. destruct (HF 0 0 ib (nodes_self ib)) as [_ A2]. apply A2; [unfold cb_leaf; rewrite Li; reflexivity|exact Hq]. }
    rewrite Em. rewrite (sum_ext (cb_k ob) _ (fun q => M ob p q * Y q)%F); [ring|]. intros q Hq.
    destruct (Nat.leb_spec (cb_k ob) q); [lia|]. reflexivity.
Qed.

Lemma inh2_sub (rb cb : cbasis G) u f (l : list (h2matrix G)) rs cs ds k (s : h2matrix G) : nth_error l k = Some s ->
  forall a, inh2 s a -> inh2 (H2 rb cb u f (Some l) rs cs ds) a.
Proof. intros Hs a Ha. eapply inh2_son; [reflexivity|eapply nth_error_In; exact Hs|exact Ha]. Qed.

Lemma wp_fast2 M h : forall R W alpha (xt yt : vec) D X Xt Y m (Q : unit -> mem K -> Prop),
  h2rep M m h D -> h2strict h -> cbok (h2_rb h) -> cbok (h2_cb h) -> vval m xt Xt -> vval m yt Y ->
  vdim xt = cb_ktree (h2_cb h) -> vdim yt = cb_ktree (h2_rb h) -> fwd_of M (h2_cb h) X Xt ->
  disj (inv xt) (inv yt) -> disj (inh2 h) (inv yt) -> rdok R W (inh2 h) -> rdok R W (inv xt) -> wrok W (inv yt) ->
  (forall m' Y', vval m' yt Y' ->
     (forall p, p < h2rows h -> bwd_of M (h2_rb h) Y' p = bwd_of M (h2_rb h) Y p + alpha * mvec (h2cols h) D X p)%F ->
     keeps (inv yt) m m' -> Q tt m') ->
  wp R W (fastaddeval_h2matrix_avector alpha h xt yt) m Q.
Proof.
  induction h as [h IH] using h2_rect'. intros R W alpha xt yt D X Xt Y m Q Hrep Hst Hr Hc Hx Hy Ex Ey HF Dxy Dhy Rh Rx Wy HQ.
  destruct Hrep as [rb cb A Su ds D P1 P2 P3 P4|rb cb F ds D P1 P2 P3|rb cb ds D P1|rb cb l rsons csons ds hs ws D P1 P2 P3 P4 P5 P6 P7];
    cbn [fastaddeval_h2matrix_avector]; unfold h2rows, h2cols in HQ; cbn [h2_rb h2_cb] in *.
  - change (wp R W (mvm_amatrix_avector alpha false A xt yt) m Q).
    eapply (wp_coupling false R W alpha A xt yt M rb cb); eauto.
    + intros a Ha. apply Dhy. eapply inh2_u; [reflexivity|exact Ha].
    + intros a Ha. apply Rh. eapply inh2_u; [reflexivity|exact Ha].
  - inversion Hst as [|? ? ? ? L1 L2| |]; subst. pose proof (cbok_ktree rb Hr) as Kr. pose proof (cbok_ktree cb Hc) as Kc.
    unfold cb_leaf in Kr, Kc. rewrite L1 in Kr. rewrite L2 in Kc.
    apply wp_bind, wp_init_sub_avector; [lia|]. apply wp_bind, wp_init_sub_avector; [lia|]. apply wp_bind.
    change (addeval_amatrix_avector alpha F) with (mvm_amatrix_avector alpha false F).
    eapply (wp_dense false R W alpha F xt yt M rb cb); eauto.
    + intros a Ha. apply Dhy. eapply inh2_f; [reflexivity|exact Ha].
    + intros a Ha. apply Rh. eapply inh2_f; [reflexivity|exact Ha].
  - cbn [wp]. eapply HQ; [exact Hy| |apply keeps_refl]. intros p Hp. unfold mvec. rewrite (sum_0 L); [ring|].
    intros q Hq. rewrite P1 by assumption. ring.
  - inversion Hst as [| | |? ? ? ? ? ? HS]; subst.
    assert (Hnth : forall i j, i < rsons -> j < csons -> exists s, nth_error l (i + j * rsons) = Some s).
    { intros i j Hi Hj. apply nth_ex. rewrite P3. apply pos_lt; assumption. }
    assert (HPr : forall i, i < rsons -> exists s, part_of rb rsons i s /\ cb_size s = hs i).
    { intros i Hi. destruct (Hnth i 0 Hi P2) as [s Hs]. exists (h2_rb s). destruct (HS i 0 s Hi P2 Hs) as (A & _). split; [exact A|]. apply (P6 i 0 s Hi P2 Hs). }
    assert (HPc : forall j, j < csons -> exists s, part_of cb csons j s /\ cb_size s = ws j).
    { intros j Hj. destruct (Hnth 0 j P1 Hj) as [s Hs]. exists (h2_cb s). destruct (HS 0 j s P1 Hj Hs) as (_ & A & _). split; [exact A|]. apply (P6 0 j s P1 Hj Hs). }
    pose proof (part_prow rb rsons hs HPr) as Eh. pose proof (part_prow cb csons ws HPc) as Ew.
    cbv zeta. rewrite <- (noff_0 cb), <- (noff_0 rb).
    apply wp_bind.
    apply (wp_forS (fun j xoff m1 => xoff = noff cb j /\ exists Y1, vval m1 yt Y1 /\
      (forall p, p < cb_size rb -> bwd_of M rb Y1 p = bwd_of M rb Y p + alpha * mvec (nsum j ws) D X p)%F /\ keeps (inv yt) m m1)).
    + split; [reflexivity|]. exists Y. split; [exact Hy|]. split; [|apply keeps_refl]. intros p Hp. cbn [nsum]. unfold mvec. cbn [sum]. ring.
    + intros j xoff m1 [_ Hj] (-> & Y1 & Hy1 & HB1 & Hk1). cbn in Hj.
      destruct (HPc j Hj) as (cs & Hcs & Ecs).
      apply wp_bind. unfold h2_split_ok. apply wp_assert; [eapply part_split; exact Hcs|].
      apply wp_bind. eapply wp_h2_part; [exact Hc|exact Hj|exact Hcs|exact Ex|].
      pose proof (part_room cb csons j cs Hc Hj Hcs) as Bc.
      apply wp_bind.
      apply (wp_forS (fun i yoff m2 => yoff = noff rb i /\ exists Y2, vval m2 yt Y2 /\
        (forall p, p < cb_size rb -> bwd_of M rb Y2 p = bwd_of M rb Y p + alpha * mvec (if p <? nsum i hs then nsum (S j) ws else nsum j ws) D X p)%F /\ keeps (inv yt) m m2)).
      * split; [reflexivity|]. exists Y1. split; [exact Hy1|]. split; [|exact Hk1]. intros p Hp. rewrite HB1 by exact Hp. reflexivity.
      * intros i yoff m2 [_ Hi] (-> & Y2 & Hy2 & HB2 & Hk2). cbn in Hi.
        destruct (HPr i Hi) as (rs & Hrs & Ers).
        apply wp_bind. unfold h2_split_ok. apply wp_assert; [eapply part_split; exact Hrs|].
        apply wp_bind. eapply wp_h2_part; [exact Hr|exact Hi|exact Hrs|exact Ey|].
        pose proof (part_room rb rsons i rs Hr Hi Hrs) as Br.
        destruct (Hnth i j Hi Hj) as [s Hs]. destruct (HS i j s Hi Hj Hs) as (Sr & Sc & Ss). destruct (P6 i j s Hi Hj Hs) as [Er Ec].
        assert (Ers' : h2_rb s = rs).
        { destruct Hrs as [(A1 & A2 & A3)|(A1 & A2)], Sr as [(B1 & B2 & B3)|(B1 & B2)]; try congruence.
          - rewrite A1 in B2. destruct i; discriminate B2.
          - rewrite B1 in A2. destruct i; discriminate A2. }
        assert (Ecs' : h2_cb s = cs).
        { destruct Hcs as [(A1 & A2 & A3)|(A1 & A2)], Sc as [(B1 & B2 & B3)|(B1 & B2)]; try congruence.
          - rewrite A1 in B2. destruct j; discriminate B2.
          - rewrite B1 in A2. destruct j; discriminate A2. }
        rewrite (sget_map _ _ _ _ Hs). cbn [bind]. apply wp_bind.
        assert (Dhy' : disj (inh2 s) (inv yt)) by (intros a Ha; apply Dhy; eapply inh2_sub; eauto).
        eapply (IH l s eq_refl (nth_error_In _ _ Hs)) with (xt := subv xt (pcol cb j) (cb_ktree cs)) (yt := subv yt (pcol rb i) (cb_ktree rs))
          (X := shiftv X (prow cb j)).
        -- eapply h2rep_keeps; [exact (P7 i j s Hi Hj Hs)|exact Hk2|exact Dhy'].
        -- exact Ss.
        -- rewrite Ers'. eapply part_ok; [exact Hr|exact Hrs].
        -- rewrite Ecs'. eapply part_ok; [exact Hc|exact Hcs].
        -- apply vval_subv; [|lia]. eapply vval_keeps; [exact Hx|exact Hk2|exact Dxy].
        -- apply vval_subv; [exact Hy2|lia].
        -- rewrite Ecs'. reflexivity.
        -- rewrite Ers'. reflexivity.
        -- rewrite Ecs'. exact (fwd_part_of M cb csons j cs X Xt Hj Hcs HF).
        -- apply disj_subv; [lia|]. apply (subv_disj xt); [lia|exact Dxy].
        -- apply (subv_disj xt); [lia|exact Dhy'].
        -- intros a Ha. apply Rh. eapply inh2_sub; eauto.
        -- intros a Ha. apply Rx. eapply inv_subv; [|exact Ha]. lia.
        -- intros a Ha. apply Wy. eapply inv_subv; [|exact Ha]. lia.
        -- intros m3 Y3 Hy3 HB3 Hk3. cbn [uninit_avector vown subv bind]. rewrite (h2_next_eq rb rsons i rs Hi Hrs). cbn [wp].
           split; [reflexivity|]. eexists. split; [eapply vval_subv_back; [exact Hy2| |exact Hy3|exact Hk3]; lia|].
           split; [|eapply keeps_trans; [exact Hk2|eapply keeps_subv; [|exact Hk3]; lia]].
           intros p Hp.
           rewrite (bwd_part_of L M rb rsons i rs Y2 _ (fun p => alpha * mvec (h2cols s) (fun p q => D (nsum i hs + p)%nat (nsum j ws + q)%nat) (shiftv X (prow cb j)) p)%F Hr Hi Hrs).
           ++ rewrite <- Eh by lia. rewrite Ers. cbn [nsum].
              destruct (Nat.leb_spec (nsum i hs) p) as [Hlo|Hlo]; cbn [andb].
              ** destruct (Nat.ltb_spec p (nsum i hs + hs i)) as [Hhi|Hhi].
                 --- rewrite HB2 by exact Hp. destruct (Nat.ltb_spec p (nsum i hs)); [lia|].
                     rewrite (mvec_app L). unfold mvec. rewrite Ec. replace (nsum i hs + (p - nsum i hs)) with p by lia. unfold shiftv. rewrite <- Ew by lia. ring.
                 --- rewrite HB2 by exact Hp. destruct (Nat.ltb_spec p (nsum i hs)); [lia|reflexivity].
              ** rewrite HB2 by exact Hp. destruct (Nat.ltb_spec p (nsum i hs + hs i)); [|lia]. destruct (Nat.ltb_spec p (nsum i hs)); [|lia]. reflexivity.
           ++ intros o Ho Ho'. destruct (Nat.leb_spec (pcol rb i) o); [|reflexivity]. destruct (Nat.ltb_spec o (pcol rb i + cb_ktree rs)); [lia|reflexivity].
           ++ intros p' Hp''. unfold h2rows in HB3. rewrite Ers' in HB3. rewrite <- HB3 by exact Hp''.
              apply bwd_ext; [eapply part_ok; [exact Hr|exact Hrs]|exact Hp''|reflexivity|]. intros q Hq. unfold shiftv.
              destruct (Nat.leb_spec (pcol rb i) (pcol rb i + q)); [|lia]. destruct (Nat.ltb_spec (pcol rb i + q) (pcol rb i + cb_ktree rs)); [|lia].
              cbn [andb]. f_equal. lia.
           ++ exact Hp.
      * intros yoff m2 (-> & Y2 & Hy2 & HB2 & Hk2). cbn [Nat.add] in *.
        destruct (HPr 0 P1) as (r0 & Hr0 & _). rewrite (noff_end rb rsons 0 r0 Hr Hr0). wstep. cbn [uninit_avector vown subv bind].
        rewrite (h2_next_eq cb csons j cs Hj Hcs). cbn [wp].
        split; [reflexivity|]. exists Y2. split; [exact Hy2|]. split; [|exact Hk2]. intros p Hp. rewrite HB2 by exact Hp. rewrite P4.
        destruct (Nat.ltb_spec p (cb_size rb)); [reflexivity|lia].
    + intros xoff m1 (-> & Y1 & Hy1 & HB1 & Hk1). cbn [Nat.add] in *.
      destruct (HPc 0 P2) as (c0 & Hc0 & _). rewrite (noff_end cb csons 0 c0 Hc Hc0). wstep. eapply HQ; [exact Hy1| |exact Hk1].
      intros p Hp. rewrite HB1 by exact Hp. rewrite P5. reflexivity.
Qed.
End H2P2.
