(** * Inversion of H-matrices: the recursion *)
From Coq Require Import Arith Lia List Bool Permutation Ring NArith.
From Verif Require Import Fld Ord Prog Arr View Loop Line Spec FactorSpec FactorP4 Cluster Block BlockP Avector Amatrix AvectorP AmatrixP AmatrixP2 Rkmatrix RkSpec RkP Factor Chol CholSpec Qr QrSpec QrP9 Lr LrP
  CbP CbmSpec CbmP CopSpec OrthoP SepP SepP2 Htrunc HtSpec HtP HtP2 HtP3 HtP4 Hmatrix HmSpec HmP HmP3 HmP4 HlibSpec Harith HaSpec HaP HaP2 HaP3 HaP4 HaddSpec HmvP Hadd MgP MgP2 MgP3 HaddP HaddP2 HaddP3 HaddP4 HaddP5 HaddP6 Hmul HmulP HmulP2 HmulP3 HmulP4 HmulP5 Hfac HfacSpec HfacP HfacP2 HfacP3 HfacP4 HfacP5 HcholP2 Hinv HinvSpec HinvP HinvP2 HinvP3 HinvP4.
Import ListNotations.
Local Open Scope nat_scope.

Section P.
Context {K : fops} {G : ofops} (L : field_laws K) (O : qops K) (H : qlaws O) (HZ : exact_zero O).
Context (orth : Prop) (good : nat -> (nat -> K) -> Prop) (chosen : nat -> (nat -> K) -> nat -> Prop) (dom : nat -> nat -> Prop).
Context (svd : mat -> vec -> mat -> mat -> prog K unit) (rank : vec -> prog K nat) (Hsvd : svd_ok orth good dom svd) (Hrank : rank_ok good chosen rank).
Context (Hdom : forall r c, dom r c) (Hless : forall n s k, chosen n s k -> forall l, k <= l < n -> s l = f0).
Notation RL := (fl_ring K L).
Add Ring KringHinv5 : (rl_ring K (fl_ring K L)).
Local Notation hmx := (hmatrix G).
Implicit Types (m : mem K) (a w s : hmx) (l la lw : list hmx) (D E F X Y Z B : nat -> nat -> K) (rc : cptr G).

Lemma fpl_app l l' (c : addr) : fpl (l ++ l') c <-> fpl l c \/ fpl l' c.
Proof.
  unfold fpl. split.
  - intros (k & s & Hk & Hc). destruct (Nat.lt_ge_cases k (length l)) as [Hl|Hl]; [rewrite nth_error_app1 in Hk by exact Hl; left; eauto|rewrite nth_error_app2 in Hk by exact Hl; right; eauto].
  - intros [(k & s & Hk & Hc)|(k & s & Hk & Hc)]; [exists k, s; rewrite nth_error_app1 by (apply nth_error_Some; congruence); auto|].
    exists (length l + k), s. rewrite nth_error_app2 by lia. replace (length l + k - length l) with k by lia. auto.
Qed.
Lemma like_all l l' : length l' = length l -> (forall k s s', nth_error l k = Some s -> nth_error l' k = Some s' -> hlike s s') -> Forall2 hlike l l'.
Proof.
  revert l'. induction l as [|x l IH]; intros [|x' l'] HL HH; try discriminate; constructor; [apply (HH 0); reflexivity|]. apply IH; [cbn in HL; lia|]. intros k s s' H1 H2. apply (HH (S k)); assumption.
Qed.

(** The parts of the working storage *)
Lemma room_parts m rc l R ds : let h := HM rc rc None None (Some l) R R ds in hroom m h -> hstd h -> hpos h -> length l = R * R /\
  (forall i k s, i < R -> k < R -> nth_error l (i + k * R) = Some s -> hm_rc s = prt rc i /\ hm_cc s = prt rc k) /\
  (forall s, In s l -> hstd s /\ hpos s) /\ (forall s, In s l -> hroom m s).
Proof.
  intros h HR HS HP. inversion_clear HR as [| |? ? ? ? ? ? hs ws P1 P2 P3 P4 P5 P6 P7]. split; [exact P3|]. destruct (HS h l (hnodes_self h) eq_refl) as (_ & HQ). cbn [hm_rsons hm_csons hm_rc hm_cc h] in HQ. split.
  { intros i k s Hi Hk Hs. destruct (HQ i k s Hi Hk Hs) as [Q1 Q2]. apply (cl_part_prt (K := K)) in Q1 as (E1 & _). apply (cl_part_prt (K := K)) in Q2 as (E2 & _). auto. } split; [|exact P7].
  intros s Is. split; [eapply hstd_son; [exact HS|reflexivity|exact Is]|eapply hpos_son; [exact HP|reflexivity|exact Is]].
Qed.

Lemma wp_invert_h s0 : inv_ok (invert_h O svd rank s0) s0.
Proof.
  induction s0 as [s0 IH] using hsize_ind. intros a w m D F B Q HLk HR HU HS HP HRw HUw HSw HPw Hft Hdj HF Hnz HB HQ.
  destruct Hft as [rc f ds w E1 E2 E3 E4|rc l R ds lw ds' Hft].
  - inversion HLk; subst s0. cbn [invert_h hm_rc hm_cc hm_f hm_rsons hm_csons]. rewrite E1, E2, E3, E4, cp_eqb_refl, !Nat.eqb_refl. cbn [passert bind]. unfold hrows in HF, Hnz, HB. cbn [hm_rc] in HF, Hnz, HB.
    pose proof HR as HRx. inversion_clear HRx as [|? ? ? ? ? V1 V2 V3|]. pose proof HU as HUx. inversion_clear HUx as [|? ? ? ? U1 U2 U3|].
    assert (Hlt : forall c, hfp (HM rc rc None (Some f) None 0 0 ds) c -> fst c < next m) by (intros c Hc; eapply hfp_lt; eassumption).
    apply wp_bind. eapply (wp_qrinvert L O H TT TT f D m); [congruence|exact U3|exact V3| |intros ? _; exact Logic.I| |].
    { apply (Hlt (ma f 0 0)). apply hfp_full. apply inm_ma; lia. }
    { rewrite V1. intros E HE. eapply reg_ext; [eapply (lrinv_regular L); [exact HF|exact Hnz]|]. intros i j Hi Hj. apply (no_pert L O HZ _ D E HE i j Hi Hj). }
    rewrite V1. intros Gv E m' HV HE HI HK.
    assert (HBG : inverse (csz rc) D Gv).
    { eapply (inverse_right L); [exact HF|exact Hnz|]. intros i j Hi Hj. rewrite <- (HI i j Hi Hj). unfold mmul. apply sum_ext. intros k Hk. rewrite (no_pert L O HZ _ D E HE i k Hi Hk). reflexivity. }
    assert (HM : moves m (inm f) (inm f) m') by (eapply moves_keeps; [exact HK|auto|intros c Hc; apply Hlt, hfp_full, Hc]).
    assert (Hdw : disj (hfp w) (inm f)) by (intros c Hc Hf; apply (Hdj c); [apply hfp_full, Hf|exact Hc]).
    cbn [wp]. apply HQ.
    + constructor; [exact V1|exact V2|]. intros i j Hi Hj. rewrite (HV i j Hi Hj). f_equal. apply (inverse_unique L _ _ _ _ HBG HB); congruence.
    + constructor; assumption.
    + constructor.
    + eapply room_moves; eassumption.
    + eapply hmut_moves; eassumption.
    + eapply hlike_refl. exact HUw.
    + exact Hdj.
    + eapply moves_keeps; [exact HK|intros c Hc; left; apply hfp_full, Hc|]. intros c [Hc|Hc]; [apply Hlt, Hc|eapply room_lt; eassumption].
  - inversion HLk as [| |? ? l0 l' ? ? ? HFl]; subst. cbn [invert_h hm_rc hm_cc hm_f hm_son hm_rsons hm_csons]. rewrite cp_eqb_refl, Nat.eqb_refl. cbn [passert bind]. unfold hrows in HF, Hnz, HB. cbn [hm_rc] in HF, Hnz, HB.
    destruct (square_parts m rc l R ds D HR HS HP) as (R0 & HL0 & ER & Hcl & Hst0 & Hson).
    destruct (room_parts m rc lw R ds' HRw HSw HPw) as (HLw & Hclw & Hstw & Hrw).
    assert (HLs : length l0 = length l) by (clear - HFl; induction HFl; cbn; congruence).
    assert (Hclb : forall (b : bool) i k s, i < R -> k < R -> nth_error (if b then lw else l) (i + k * R) = Some s -> hm_rc s = prt rc i /\ hm_cc s = prt rc k) by (intros [|]; assumption).
    assert (Hstb : forall (b : bool) s, In s (if b then lw else l) -> hstd s /\ hpos s) by (intros [|]; assumption).
    inversion HU as [| |? ? ? ? ? ? HU1 HU2]; subst. inversion HUw as [| |? ? ? ? ? ? HUw1 HUw2]; subst.
    set (off := fun i => nsum i (fun i => csz (prt rc i))).
    destruct (fin_choice (fun _ _ : nat => f0 : K) R (fun k X => inverse (csz (prt rc k)) (fun p q => sc (nsum R (fun i => csz (prt rc i))) (off k) F (off k + p) (off k + q)) X)) as (T & HT).
    { intros k Hk. apply (inverse_exists L O H HZ). pose proof (nsum_in (fun i => csz (prt rc i)) k R Hk) as Hin. cbv beta in Hin.
      eapply (lrinv_regular L); [apply (sc_diag L); unfold off; lia|]. intros i Hi. apply Hnz. rewrite <- ER. unfold off. lia. }
    unfold off in HT. clear off. rewrite <- ER in HF, Hnz, HB.
    apply wp_bind. apply (wp_forS (fun k (s : list hmx * list hmx) m' => pr R m l lw (tdn R rc F T k k none (vdn k)) (fst s) (snd s) m')).
    + cbn [fst snd]. split; [exact HL0|]. apply wood_start.
      * intros n s Hs. assert (Hn : n < R * R + R * R) by (rewrite <- HL0 at 1; rewrite <- HLw, <- app_length; apply nth_error_Some; congruence).
        destruct (pos_cases R l lw HL0 HLw n Hn) as (b & i & k & Hi & Hk & ->). rewrite (nth_pos R l lw HL0 HLw b i k l lw HL0 Hi Hk) in Hs. rewrite (tg_pos R l lw HL0 HLw _ b i k Hi Hk). pose proof (nth_error_In _ _ Hs) as Is. destruct b.
        -- unfold tdn, vdn. cbn [Nat.ltb Nat.leb andb]. split; [apply Hrw, Is|apply HUw1, Is].
        -- split; [|apply HU1, Is]. unfold tdn, none. cbn [hst]. eapply hrep_ext; [exact (Hson i k s Hi Hk Hs)|]. intros p q Hp Hq. destruct (Hcl i k s Hi Hk Hs) as [C1 C2]. unfold hrows, hcols in Hp, Hq. rewrite C1 in Hp. rewrite C2 in Hq.
           replace (i <? 0) with false by reflexivity. rewrite andb_false_r, Nat.min_0_r. unfold CB. cbn [nsum]. pose proof (nsum_in (fun i => csz (prt rc i)) i R Hi) as Q1. pose proof (nsum_in (fun i => csz (prt rc i)) k R Hk) as Q2. cbv beta in Q1, Q2. rewrite <- (lrinv_prod L _ _ _ HF) by lia. unfold sc, mmul. rewrite Nat.sub_0_r. reflexivity.
      * intros i k s t Hi Hk Hn. destruct (Nat.lt_ge_cases i (length l)) as [Ci|Ci]; destruct (Nat.lt_ge_cases k (length l)) as [Ck|Ck]; [rewrite nth_error_app1 in Hi, Hk by assumption|rewrite nth_error_app1 in Hi by assumption; rewrite nth_error_app2 in Hk by assumption|rewrite nth_error_app2 in Hi by assumption; rewrite nth_error_app1 in Hk by assumption|rewrite nth_error_app2 in Hi, Hk by assumption].
        -- eapply HU2; eassumption.
        -- intros c Hc Hc'. apply (Hdj c); apply hfp_super; [exists i, s; auto|exists (k - length l), t; auto].
        -- intros c Hc Hc'. apply (Hdj c); apply hfp_super; [exists k, t; auto|exists (i - length l), s; auto].
        -- eapply HUw2; [exact Hi|exact Hk|lia].
    + intros k [la1 lw1] m1 Hk H1. cbn [fst snd] in H1. assert (Hk' : k < R) by lia. destruct (nth_ex l (k + k * R)) as (s & Hs); [rewrite HL0; apply pos_lt; lia|]. destruct (nth_ex l0 (k + k * R)) as (s' & Hs'); [rewrite HLs, HL0; apply pos_lt; lia|].
      apply wp_bind. rewrite (sget_map _ _ _ _ Hs'). cbn [wp].
      eapply (wp_invdown L O H HZ orth good chosen dom svd rank Hsvd Hrank Hdom Hless R rc m l lw HL0 HLw Hclb Hstb Hft F T Hnz HT k la1 lw1 m1 _ s _ Hk' H1 Hs); [|auto].
      intros a1 w1 m2 D1 F1 B1 Q1 HL1. apply (IH l0 s' eq_refl (nth_error_In _ _ Hs')). eapply hlike_trans; [exact (BlockP.Forall2_nth _ _ _ HFl _ _ _ Hs' Hs)|exact HL1].
    + intros [la1 lw1] m1 H1. cbn [fst snd Nat.add] in *. apply wp_bind.
      apply (wp_forS (fun k la m' => pr R m l lw (tup R rc F B T (sq (R - k))) la lw1 m')).
      * eapply (pr_ext R rc m l lw HL0 HLw Hclb); [exact H1|]. intros b i j Hi Hj. rewrite Nat.sub_0_r. unfold tdn, tup. destruct b; [apply oeq_refl|]. cbn [oeq]. intros p c _ _.
        unfold sq, none. destruct (Nat.leb_spec R i); [lia|]. cbn [andb]. destruct (Nat.eqb_spec i j) as [->|]; cbn [andb]; [destruct (Nat.ltb_spec j R); [reflexivity|lia]|]. f_equal. replace (Nat.min (Nat.min i j) R) with (Nat.min i j) by lia. reflexivity.
      * intros k la2 m2 Hk H2. eapply (wp_invup L O H HZ orth good chosen dom svd rank Hsvd Hrank Hdom Hless R rc m l lw HL0 HLw Hclb Hstb F D B T HF Hnz HB HT (R - 1 - k)); [lia|replace (S (R - 1 - k)) with (R - k) by lia; exact H2|].
        intros la3 m3 H3. replace (R - S k) with (R - 1 - k) by lia. exact H3.
      * clear H1. intros la2 m2 H2. cbn [Nat.add] in H2. rewrite Nat.sub_diag in H2. cbn [wp fst snd set_sons].
        pose proof (pr_get R rc m l lw HL0 HLw Hclb Hstb (tup R rc F B T (sq 0)) la2 lw1 m2) as Gt. pose proof (pr_lw R m l lw HL0 HLw _ _ _ _ H2) as HLw1. pose proof H2 as (HLa1 & HW).
        assert (Gn : forall b n s, nth_error (if b : bool then lw1 else la2) n = Some s -> exists i k, i < R /\ k < R /\ n = i + k * R).
        { intros b n s Hs. destruct (posinv R R n) as (i & k & Hi & Hk & E); [|eauto]. destruct b; [rewrite <- HLw1|rewrite <- HLa1]; apply nth_error_Some; congruence. }
        assert (Sz : forall b i j s, i < R -> j < R -> nth_error (if b : bool then lw1 else la2) (i + j * R) = Some s -> hrows s = csz (prt rc i) /\ hcols s = csz (prt rc j)).
        { intros b i j s Hi Hj Hs. destruct (Gt b i j H2 Hi Hj) as (s' & Hs' & C1 & C2 & _). rewrite Hs in Hs'. injection Hs' as <-. unfold hrows, hcols. rewrite C1, C2. auto. }
        assert (Mu : forall b s, In s (if b : bool then lw1 else la2) -> hroom m2 s /\ hmut m2 s).
        { intros b s Is. apply In_nth_error in Is as (n & Hn). destruct (Gn b n s Hn) as (i & k & Hi & Hk & ->). destruct (Gt b i k H2 Hi Hk) as (s' & Hs' & _ & _ & C3 & C4 & _). rewrite Hn in Hs'. injection Hs' as <-. split; [eapply hst_room; exact C3|exact C4]. }
        assert (Lk : forall b : bool, Forall2 hlike (if b then lw else l) (if b then lw1 else la2)).
        { intros b. apply like_all; [destruct b; congruence|]. intros n s s' Hs Hs'. destruct (Gn b n s' Hs') as (i & k & Hi & Hk & ->). destruct (Gt b i k H2 Hi Hk) as (s1 & Hs1 & _ & _ & _ & _ & _ & _ & t & Ht & C). rewrite Hs' in Hs1. injection Hs1 as <-. rewrite Hs in Ht. injection Ht as <-. exact C. }
        assert (Dj : forall b n b' n' s s', nth_error (if b : bool then lw1 else la2) n = Some s -> nth_error (if b' : bool then lw1 else la2) n' = Some s' -> b <> b' \/ n <> n' -> disj (hfp s) (hfp s')).
        { intros b n b' n' s s' Hs Hs' Hn. destruct (Gn b n s Hs) as (i & k & Hi & Hk & ->). destruct (Gn b' n' s' Hs') as (i' & k' & Hi' & Hk' & ->).
          apply (pr_dis R m l lw HL0 HLw (tup R rc F B T (sq 0)) la2 lw1 m2 b i k b' i' k' s s' H2); try assumption. destruct Hn as [Hn|Hn]; [left; exact Hn|right]. destruct (Nat.eq_dec i i') as [->|]; [right; intros ->; apply Hn; reflexivity|left; assumption]. }
        apply HQ.
        -- econstructor; [exact R0|exact R0|exact HLa1|exact ER|exact ER|exact (Sz false)|]. intros i j s Hi Hj Hs. destruct (Gt false i j H2 Hi Hj) as (s' & Hs' & _ & _ & C3 & _). cbv iota in Hs'. rewrite Hs in Hs'. injection Hs' as <-. exact C3.
        -- constructor; [intros s Is; apply (Mu false s Is)|]. intros i k s t Hi Hk Hn. apply (Dj false i false k s t Hi Hk). right. exact Hn.
        -- constructor. exact (Lk false).
        -- econstructor; [exact R0|exact R0|exact HLw1|exact ER|exact ER|exact (Sz true)|]. intros s Is. apply (Mu true s Is).
        -- constructor; [intros s Is; apply (Mu true s Is)|]. intros i k s t Hi Hk Hn. apply (Dj true i true k s t Hi Hk). right. exact Hn.
        -- constructor. exact (Lk true).
        -- intros c Hc Hc'. apply hfp_super in Hc as (n1 & s & Hs & Hc). apply hfp_super in Hc' as (n2 & t & Ht & Hc'). assert (Nft : false <> true) by discriminate. exact (Dj false n1 true n2 s t Hs Ht (or_introl Nft) c Hc Hc').
        -- eapply moves_ext; [| |exact (wo_mov _ _ _ _ _ HW)]; intros c; rewrite fpl_app, !hfp_super; reflexivity.
Qed.

(** ** Working storage set up by the constructors *)
Lemma hfp_block w (c : addr) : hfp w c -> In (fst c) (hblocks w).
Proof.
  induction w as [w IH] using hsize_ind. intros Hc. inversion Hc as [h r a1 Hr Hin|h f a1 Hf Hin|h l s a1 Hl Hs Hin]; subst; destruct w as [rc cc r' f' son rs cs ds]; cbn in *.
  - subst r'. apply in_or_app. left. destruct Hin as [E|E]; rewrite E; cbn; auto.
  - subst f'. apply in_or_app. right. apply in_or_app. left. apply inm_blk in Hin. rewrite Hin. left. reflexivity.
  - subst son. apply in_or_app. right. apply in_or_app. right. apply in_flat_map. exists s. split; [exact Hs|]. eapply IH; [reflexivity|exact Hs|exact Hin].
Qed.
Lemma nodup_flat {A} (f : A -> list nat) : forall l : list A, NoDup (flat_map f l) -> (forall x, In x l -> NoDup (f x)) /\
  (forall i k x y, nth_error l i = Some x -> nth_error l k = Some y -> i <> k -> forall n, In n (f x) -> In n (f y) -> False).
Proof.
  induction l as [|z l IH]; intros HN; [split; [intros x []|intros [|i] k x y Hx; discriminate]|]. cbn [flat_map] in HN. pose proof (NoDup_app_l _ _ HN) as N1. pose proof (NoDup_app_r _ _ HN) as N2. pose proof (fun n => NoDup_app_disj _ _ n HN) as N3. destruct (IH N2) as [I1 I2]. split.
  - intros x [<-|Hx]; [exact N1|exact (I1 x Hx)].
  - intros [|i] [|k] x y Hx Hy Hn n Hnx Hny; cbn in Hx, Hy; [lia| | |].
    + injection Hx as <-. apply (N3 n Hnx). apply in_flat_map. exists y. split; [eapply nth_error_In; exact Hy|exact Hny].
    + injection Hy as <-. apply (N3 n Hny). apply in_flat_map. exists x. split; [eapply nth_error_In; exact Hx|exact Hnx].
    + eapply (I2 i k); try eassumption. lia.
Qed.
Lemma str_room m w : hstr m w -> hroom m w.
Proof. induction 1; [constructor|constructor|econstructor]; eassumption. Qed.
Lemma own_mut m w : hstr m w -> NoDup (hblocks w) -> hpos w -> hmut m w.
Proof.
  induction 1 as [rc cc r ds H1 H2 H3|rc cc f ds H1 H2 H3 H4 H5 H6|rc cc l rs cs ds hs ws P1 P2 P3 P4 P5 P6 P7 IH]; intros HN HP.
  - destruct (HP _ (hnodes_self _)) as [Z1 Z2]. constructor; assumption.
  - destruct (HP _ (hnodes_self _)) as [Z1 Z2]. constructor; assumption.
  - cbn in HN. destruct (nodup_flat hblocks l HN) as [I1 I2]. constructor.
    + intros s Is. apply (IH s Is (I1 s Is)). eapply hpos_son; [exact HP|reflexivity|exact Is].
    + intros i k s t Hs Ht Hn c Hc Hc'. apply hfp_block in Hc, Hc'. exact (I2 i k s t Hs Ht Hn _ Hc Hc').
Qed.

(** ** Matrices of the same structure *)
Lemma hsim_nodes a : forall a' s', hsim a a' -> In s' (hnodes a') -> exists s, In s (hnodes a) /\ hsim s s'.
Proof.
  induction a as [a IH] using hsize_ind. intros a' s' HL Hs. pose proof HL as HL0.
  destruct HL as [rc cc r r' ds|rc cc f f' ds|rc cc l l' rs cs ds ds' HF].
  - cbn in Hs. destruct Hs as [<-|[]]. eexists. split; [left; reflexivity|exact HL0].
  - cbn in Hs. destruct Hs as [<-|[]]. eexists. split; [left; reflexivity|exact HL0].
  - cbn [hnodes] in Hs. destruct Hs as [<-|Hs]; [eexists; split; [left; reflexivity|exact HL0]|]. apply in_flat_map in Hs as (t' & Ht' & Hs).
    apply In_nth_error in Ht' as (k & Hk). destruct (nth_ex l k) as (t & Ht).
    { clear - HF Hk. revert k Hk. induction HF as [|u v l l' Hab HF IH]; intros [|k] Hk; cbn in *; try discriminate; [lia|]. specialize (IH k Hk). lia. }
    pose proof (BlockP.Forall2_nth _ _ _ HF _ _ _ Ht Hk) as HLt. destruct (IH l t eq_refl (nth_error_In _ _ Ht) t' s' HLt Hs) as (s & S1 & S2).
    exists s. split; [|exact S2]. eapply hnodes_son; [reflexivity|exact (nth_error_In _ _ Ht)|exact S1].
Qed.
Lemma hsim_sons a a' l' : hsim a a' -> hm_son a' = Some l' -> exists l, hm_son a = Some l /\ Forall2 hsim l l' /\ hm_rsons a' = hm_rsons a /\ hm_csons a' = hm_csons a.
Proof. intros [ | |rc cc l l0 rs cs ds ds' HF] E; cbn in E; try discriminate. injection E as <-. exists l. auto. Qed.
Lemma hsim_cl a a' : hsim a a' -> hm_rc a' = hm_rc a /\ hm_cc a' = hm_cc a.
Proof. intros [ | | ]; auto. Qed.
Lemma hsim_std a a' : hsim a a' -> hstd a -> hstd a'.
Proof.
  intros HL HS s' l' Hs' El'. destruct (hsim_nodes a a' s' HL Hs') as (s & Hs & HLs). destruct (hsim_sons s s' l' HLs El') as (l & El & HF & Er & Ec).
  destruct (HS s l Hs El) as [Q1 Q2]. destruct (hsim_cl _ _ HLs) as [C1 C2]. rewrite Er, Ec, C1, C2. split.
  - rewrite <- Q1. clear - HF. induction HF; cbn; [reflexivity|congruence].
  - intros i j t' Hi Hj Ht'. destruct (nth_ex l (i + j * hm_rsons s)) as (t & Ht); [rewrite Q1; apply pos_lt; lia|].
    destruct (hsim_cl _ _ (BlockP.Forall2_nth _ _ _ HF _ _ _ Ht Ht')) as [T1 T2]. rewrite T1, T2. apply Q2; assumption.
Qed.
Lemma hsim_pos a a' : hsim a a' -> hpos a -> hpos a'.
Proof. intros HL HP s' Hs'. destruct (hsim_nodes a a' s' HL Hs') as (s & Hs & HLs). destruct (hsim_cl _ _ HLs) as [C1 C2]. unfold hrows, hcols. rewrite C1, C2. apply HP, Hs. Qed.
Lemma hsim_fits a : hdiag a -> forall a', hsim a a' -> hfits a a'.
Proof.
  induction 1 as [rc f ds|rc l n ds H1 IH]; intros a' HS; inversion HS as [| |? ? ? l' ? ? ? ? HF]; subst; constructor; try reflexivity.
  intros j s t Hj Hs Ht. apply (IH j s Hj Hs). exact (BlockP.Forall2_nth _ _ _ HF _ _ _ Hs Ht).
Qed.
End P.
