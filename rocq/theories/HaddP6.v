(** * Addition of H-matrices: result *)
From Coq Require Import Arith Lia List Bool Permutation Ring.
From Verif Require Import Fld Ord Prog Arr View Loop Line Spec Cluster Block BlockP Avector Amatrix AvectorP AmatrixP AmatrixP2 Rkmatrix RkSpec RkP Factor FactorSpec Chol CholSpec Qr QrSpec
  CbmSpec CbmP CopSpec OrthoP SepP SepP2 Htrunc HtSpec HtP HtP2 HtP3 HtP4 Hmatrix HmSpec HmP HmP4 HlibSpec HaddSpec HmvP Hadd MgP MgP2 MgP3 HaddP HaddP2 HaddP3 HaddP4 HaddP5.
Import ListNotations.

Section P.
Context {K : fops} {G : ofops} (L : field_laws K) (O : qops K) (H : qlaws O) (HZ : exact_zero O).
Context (orth : Prop) (good : nat -> (nat -> K) -> Prop) (chosen : nat -> (nat -> K) -> nat -> Prop) (dom : nat -> nat -> Prop).
Context (svd : mat -> vec -> mat -> mat -> prog K unit) (rank : vec -> prog K nat) (Hsvd : svd_ok orth good dom svd) (Hrank : rank_ok good chosen rank).
Context (Hdom : forall r c, dom r c) (Hless : forall n s k, chosen n s k -> forall l, k <= l < n -> s l = f0).
Notation RL := (fl_ring K L).
Add Ring KringHad6 : (rl_ring K (fl_ring K L)).
Local Notation hmx := (hmatrix G).
Implicit Types (m : mem K) (h s t : hmx) (l : list hmx) (D E : nat -> nat -> K) (r src : rkm) (rc cc : cptr G).

Lemma leaf_std h : hm_son h = None -> hstd h.
Proof. destruct h; cbn [hm_son]. intros -> s l [<-|[]] E. discriminate. Qed.

(** A low-rank block [b] is replaced after work on the temporary matrix [bs] *)
Lemma wp_add_h alpha : fconj alpha = alpha -> forall a b m D E (Q : hmx -> mem K -> Prop), hrep m a E -> hrep m b D -> hmut m b -> hstd a -> hstd b -> hpos a -> hm_rc a = hm_rc b -> hm_cc a = hm_cc b ->
  disj (inh a) (hfp b) -> (forall b' m', hpost m b (fun i j => D i j + alpha * E i j)%F b' m' -> Q b' m') -> wp TT TT (add_hmatrix O svd rank alpha a b) m Q.
Proof.
  intros Hal. induction a as [a IH] using hsize_ind. intros b m D E Q HA HB HU SA SB HP Erc Ecc Hd HQ.
  inversion HA as [rc cc r ds E0 Z1 Z2 Z3|rc cc f ds E0 Z1 Z2 Z3|rc cc l rs cs ds hs ws E0 P1 P2 P3 P4 P5 P6 P7]; subst a; subst E0; cbn [hm_rc hm_cc] in Erc, Ecc; cbn [add_hmatrix].
  all: apply wp_bind, wp_assert; [rewrite Erc; apply cp_eqb_refl|]; apply wp_bind, wp_assert; [rewrite Ecc; apply cp_eqb_refl|].
  - eapply (wp_add_rk_h L O H HZ orth good chosen dom svd rank Hsvd Hrank Hdom Hless); [exact HB|exact HU|exact Z3|unfold hrows; rewrite <- Erc; exact Z1|unfold hcols; rewrite <- Ecc; exact Z2| |exact HQ].
    intros a Ha. apply Hd. eapply inh_r; [reflexivity|exact Ha].
  - eapply (wp_add_am_h L O H HZ orth good chosen dom svd rank Hsvd Hrank Hdom Hless); [exact Hal|exact HB|exact HU|exact Z3|unfold hrows; rewrite <- Erc; exact Z1|unfold hcols; rewrite <- Ecc; exact Z2| |exact HQ].
    intros a Ha. apply Hd. eapply inh_f; [reflexivity|exact Ha].
  - destruct (std_parts m rc cc l rs cs ds hs ws E SA P1 P2 P3 P6 P7) as (ERs & ECs & HRl & HCl & HPt).
    assert (Hson : forall i j x, i < rs -> j < cs -> nth_error l (i + j * rs) = Some x -> forall s m1 D1 (Q1 : hmx -> mem K -> Prop), hrep m1 x (fun p q => E (nsum i (fun i => csz (prt rc i)) + p) (nsum j (fun j => csz (prt cc j)) + q)) -> hrep m1 s D1 -> hmut m1 s -> hstd s ->
        prt rc i = hm_rc s -> prt cc j = hm_cc s -> disj (inh x) (hfp s) -> (forall s' m', hpost m1 s (fun p q => D1 p q + alpha * E (nsum i (fun i => csz (prt rc i)) + p)%nat (nsum j (fun j => csz (prt cc j)) + q)%nat)%F s' m' -> Q1 s' m') ->
        wp TT TT (add_hmatrix O svd rank alpha x s) m1 Q1).
    { intros i j x Hi Hj Hx s m1 D1 Q1 X1 X2 X3 X4 X5 X6 X7 X8. pose proof (nth_error_In _ _ Hx) as Hin. destruct (HPt i j x Hi Hj Hx) as (Y1 & Y2 & _).
      eapply (IH l x eq_refl Hin); [exact X1|exact X2|exact X3|eapply hstd_son; [exact SA|reflexivity|exact Hin]|exact X4|eapply hpos_son; [exact HP|reflexivity|exact Hin]|congruence|congruence|exact X7|exact X8]. }
    clear IH. assert (Hinx : forall k x, nth_error l k = Some x -> disj (inh x) (hfp b)).
    { intros k x Hx a Ha. apply Hd. eapply inh_son; [reflexivity|eapply nth_error_In, Hx|exact Ha]. }
    assert (Hposr : forall i, i < rs -> 0 < csz (prt rc i)).
    { intros i Hi. destruct (nth_ex l (i + 0 * rs) ltac:(rewrite P3; apply pos_lt; lia)) as (x & Hx). destruct (HPt i 0 x Hi P2 Hx) as (Y1 & _). rewrite <- Y1.
      apply (HP x). eapply hnodes_son; [reflexivity|eapply nth_error_In, Hx|apply hnodes_self]. }
    assert (Hposc : forall j, j < cs -> 0 < csz (prt cc j)).
    { intros j Hj. destruct (nth_ex l (0 + j * rs) ltac:(rewrite P3; apply pos_lt; lia)) as (x & Hx). destruct (HPt 0 j x P1 Hj Hx) as (_ & Y1 & _). rewrite <- Y1.
      apply (HP x). eapply hnodes_son; [reflexivity|eapply nth_error_In, Hx|apply hnodes_self]. }
    assert (ER : nsum rs (fun i => csz (prt rc i)) = csz rc) by (rewrite <- P4; apply nsum_ext'; intros i Hi; symmetry; apply HRl, Hi).
    assert (EC : nsum cs (fun j => csz (prt cc j)) = csz cc) by (rewrite <- P5; apply nsum_ext'; intros j Hj; symmetry; apply HCl, Hj).
    inversion HB as [rc' cc' br ds' D0 Z1 Z2 Z3|rc' cc' bf ds' D0 Z1 Z2 Z3|rc' cc' l' rs' cs' ds' hs' ws' D0 B1 B2 B3 B4 B5 B6 B7]; subst b; subst D0; cbn [hm_rc hm_cc] in Erc, Ecc; subst rc' cc'; cbn [hm_son hm_r hm_f hm_rsons hm_csons hm_rc hm_cc].
    + (* low-rank target *)
      rewrite (proj2 (Nat.eqb_neq rs 0)), (proj2 (Nat.eqb_neq cs 0)) by lia. cbn [negb]. set (b := HM rc cc (Some br) None None 0 0 ds') in *.
      apply wp_bind. eapply wp_split_rk with (rl := prt rc) (cl := prt cc); [symmetry; exact ERs|symmetry; exact ECs|intros i Hi; apply HRl, Hi|intros j Hj; apply HCl, Hj|exact P1|exact P2|exact ER|exact EC|exact Hposr|exact Hposc|].
      cbv zeta. intros lb m1 dsb LB SB1 UB MB. set (bs := HM rc cc None None (Some lb) rs cs dsb) in *.
      assert (Hinh : forall k x a, nth_error l k = Some x -> inh x a -> fst a < next m).
      { intros k x a Hx Ha. apply alloc_lt. eapply inh_alloc; [exact HA|]. eapply inh_son; [reflexivity|eapply nth_error_In, Hx|exact Ha]. }
      apply wp_bind. eapply (wp_addsons (add_hmatrix O svd rank alpha) l rc cc lb rs cs dsb (fun i => csz (prt rc i)) (fun j => csz (prt cc j)) (fun _ _ => f0) (fun i j => (alpha * E i j)%F)); [exact P1|exact P2|exact LB|exact ER|exact EC| | |exact UB|exact P3| |].
      { intros i j s Hi Hj Hs. destruct (SB1 i j s Hi Hj Hs) as (_ & Y1 & Y2 & _). unfold hrows, hcols. rewrite Y1, Y2. auto. }
      { intros i j s Hi Hj Hs. apply (SB1 i j s Hi Hj Hs). }
      { intros i j x s F1 m2 Hi Hj Hx Hs HM HRs HUs. destruct (SB1 i j s Hi Hj Hs) as (Y0 & Y1 & Y2 & _). destruct (HPt i j x Hi Hj Hx) as (_ & _ & Y3).
        assert (Hnew : forall a, fpl lb a -> next m <= fst a) by (intros a Ha; apply (moves_new _ _ _ _ MB); apply hfp_super; exact Ha).
        eapply (Hson i j x Hi Hj Hx s m2 (fun _ _ => f0)).
        - eapply hrep_moves; [exact HM|eapply hrep_moves; [exact MB|exact Y3|apply disj_nowhere]|]. intros a Ha Hb. pose proof (Hinh _ _ _ Hx Ha). pose proof (Hnew a Hb). lia.
        - exact HRs.
        - exact HUs.
        - apply leaf_std. destruct Y0 as (? & ? & ? & ? & ->). reflexivity.
        - congruence.
        - congruence.
        - intros a Ha Hb. pose proof (Hinh _ _ _ Hx Ha). pose proof (Hnew a (ex_intro _ _ (ex_intro _ s (conj Hs Hb)))). lia.
        - intros s' m3 HX. eapply hpost_ext; [exact HX|]. intros p q _ _. cbv beta. ring. }
      fold bs. intros bs' m2 (RB2 & UB2 & LB2 & MB2).
      pose proof (moves_trans _ _ _ _ _ _ MB MB2) as MB3.
      pose proof LB2 as LB2'. unfold bs in LB2'. inversion LB2' as [| |? ? ? lb' ? ? ? HF]; subst bs'. set (bs' := HM rc cc None None (Some lb') rs cs dsb) in *. clear LB2'.
      pose proof RB2 as RB2x. inversion_clear RB2x as [| |? ? ? ? ? ? hs2 ws2 ? _ _ N3 N4 N5 N6 N7]. pose proof UB2 as UB2x. inversion_clear UB2x as [| |? ? ? ? ? ? UU1 UU2].
      assert (Hleaf : forall i j s, i < rs -> j < cs -> nth_error lb' (i + j * rs) = Some s -> exists rc1 cc1 r1 ds1, s = HM rc1 cc1 (Some r1) None None 0 0 ds1 /\ held m2 r1 (hs2 i) (ws2 j) (fun p q => (alpha * E (nsum i hs2 + p)%nat (nsum j ws2 + q)%nat)%F)).
      { intros i j s Hi Hj Hs. destruct (nth_ex lb (i + j * rs) ltac:(rewrite LB; apply pos_lt; lia)) as (s0 & Hs0). destruct (SB1 i j s0 Hi Hj Hs0) as ((rc1 & cc1 & r1 & ds1 & E1) & _).
        pose proof (BlockP.Forall2_nth _ _ _ HF _ _ _ Hs0 Hs) as HLk. subst s0. inversion HLk as [? ? ? r2 ? X1 X2| |]. clear X1. subst s. exists rc1, cc1, r2, ds1. split; [reflexivity|].
        pose proof (N7 i j _ Hi Hj Hs) as HRs. pose proof (UU1 _ (nth_error_In _ _ Hs)) as HUs. destruct (N6 i j _ Hi Hj Hs) as [W1 W2]. unfold hrows, hcols in W1, W2. cbn in W1, W2.
        inversion_clear HRs as [? ? ? ? ? V1 V2 V3| |]. inversion_clear HUs as [? ? ? ? V4 V5 V6| |]. split; [exact V6|]. split; [exact V3|]. split; congruence. }
      apply wp_bind. eapply (wp_merge_all L O H HZ orth good chosen dom svd rank Hsvd Hrank Hdom Hless lb' rs cs hs2 ws2 (fun i j => (alpha * E i j)%F) m2 P1 P2 N3 Hleaf (csz rc) (csz cc)); [exact N4|exact N5|reflexivity|].
      intros rk m3 HK MK. pose proof (moves_add _ _ _ _ _ MB3 MK) as MB4.
      assert (Hblt : forall a, hfp b a -> fst a < next m) by (intros a Ha; eapply hfp_lt; eassumption).
      assert (HB3 : hrep m3 b D) by (eapply hrep_moves; [exact MB4|exact HB|apply disj_nowhere]). assert (HU3 : hmut m3 b) by (eapply hmut_moves; [exact MB4|exact HU|apply disj_nowhere]).
      assert (HKn : forall a, rkblk rk a -> next m <= fst a) by (intros a Ha; apply (moves_new _ _ _ _ MB4); right; exact Ha).
      assert (HBn : forall a, hfp bs' a -> next m <= fst a < next m3).
      { intros a Ha. split; [apply (moves_new _ _ _ _ MB3 Ha)|]. pose proof (moves_lt _ _ _ _ _ MB3 Ha). pose proof (moves_le _ _ _ _ MK). lia. }
      pose proof HK as (HK1 & HK2 & HK3 & HK4).
      apply wp_bind. eapply (wp_add_rk_x L O H HZ orth good chosen dom svd rank Hsvd Hrank Hdom Hless f1 rk rc cc br ds' m3 D (fun i j => (alpha * E i j)%F)); [exact HB3|exact HU3|exact HK2|exact HK3|exact HK4| |].
      { intros a Ha Hb. assert (Ha' : rkblk rk a) by (destruct Ha as [Ha|Ha]; apply inm_blk in Ha; [left|right]; exact Ha). pose proof (HKn a Ha'). pose proof (Hblt a Hb). lia. }
      intros br' m4 (RB4 & UB4 & LB4 & MB5). set (b2 := HM rc cc (Some br') None None 0 0 ds') in *. fold b in MB5.
      assert (Hd1 : disj (rkblk rk) (hfp b)) by (intros a Ha Hb; pose proof (HKn a Ha); pose proof (Hblt a Hb); lia).
      assert (Hd2 : disj (hfp bs') (hfp b)) by (intros a Ha Hb; pose proof (HBn a Ha); pose proof (Hblt a Hb); lia).
      assert (Hd3 : disj (rkblk rk) (hfp b2)) by (eapply moves_disj; [exact MB5|intros a; apply (held_blk _ _ _ _ _ _ HK)|exact Hd1]).
      assert (Hd4 : disj (hfp bs') (hfp b2)) by (eapply moves_disj; [exact MB5|intros a Ha; apply (HBn a Ha)|exact Hd2]).
      assert (Hd5 : disj (hfp bs') (rkblk rk)).
      { intros a Ha Hb. pose proof (moves_lt _ _ _ _ _ MB3 Ha). pose proof (moves_new _ _ _ _ MK Hb). lia. }
      apply wp_bind. eapply wp_drop_h; [eapply held_moves; [exact MB5|exact HK|exact Hd1]|]. intros m5 M5.
      assert (RBs3 : hrep m3 bs' (fun i j => (alpha * E i j)%F)) by (eapply hrep_moves; [exact MK|exact RB2|apply disj_nowhere]).
      assert (UBs3 : hmut m3 bs') by (eapply hmut_moves; [exact MK|exact UB2|apply disj_nowhere]).
      assert (RBs4 : hrep m4 bs' (fun i j => (alpha * E i j)%F)) by (eapply hrep_moves; [exact MB5|exact RBs3|intros a Ha; apply Hd2, inh_hfp, Ha]).
      assert (UBs4 : hmut m4 bs') by (eapply hmut_moves; [exact MB5|exact UBs3|exact Hd2]).
      assert (RBs5 : hrep m5 bs' (fun i j => (alpha * E i j)%F)) by (eapply hrep_moves; [exact M5|exact RBs4|intros a Ha; apply Hd5, inh_hfp, Ha]).
      assert (UBs5 : hmut m5 bs') by (eapply hmut_moves; [exact M5|exact UBs4|exact Hd5]).
      assert (Fw : forest m5 lb' lb' (partof rs hs2 ws2 (fun i j => (alpha * E i j)%F)) m5).
      { eapply (forest_sons m5 rc cc); [exact N3| |exact UBs5]. pose proof RBs5 as RBs5x. inversion_clear RBs5x as [| |? ? ? ? ? ? hs3 ws3 ? _ _ _ _ _ J6 J7]. intros i j s Hi Hj Hs. specialize (J7 i j s Hi Hj Hs).
        assert (EH : forall i, i < rs -> hs3 i = hs2 i) by (intros i' Hi'; destruct (nth_ex lb' (i' + 0 * rs) ltac:(rewrite N3; apply pos_lt; lia)) as (s' & Hs'); destruct (J6 i' 0 s' Hi' P2 Hs'); destruct (N6 i' 0 s' Hi' P2 Hs'); congruence).
        assert (EW : forall j, j < cs -> ws3 j = ws2 j) by (intros j' Hj'; destruct (nth_ex lb' (0 + j' * rs) ltac:(rewrite N3; apply pos_lt; lia)) as (s' & Hs'); destruct (J6 0 j' s' P1 Hj' Hs'); destruct (N6 0 j' s' P1 Hj' Hs'); congruence).
        rewrite (nsum_ext' i hs3 hs2) in J7 by (intros; apply EH; lia). rewrite (nsum_ext' j ws3 ws2) in J7 by (intros; apply EW; lia). exact J7. }
      apply wp_bind. eapply (wp_del_rks rc cc lb' rs cs dsb m5 (partof rs hs2 ws2 (fun i j => (alpha * E i j)%F))); [exact N3| | |exact UBs5|].
      { intros s Hs. apply In_nth_error in Hs as (k & Hk). assert (Hlt : k < rs * cs) by (rewrite <- N3; apply nth_error_Some; congruence).
        destruct (Hleaf (k mod rs) (k / rs) s) as (rc1 & cc1 & r1 & ds1 & E1 & _); [apply Nat.mod_upper_bound; lia|apply Nat.div_lt_upper_bound; lia| |exists rc1, cc1, r1, ds1; exact E1].
        replace (k mod rs + k / rs * rs) with k by (pose proof (Nat.div_mod k rs ltac:(lia)); lia). exact Hk. }
      { intros k s Hk. destruct (forest_get _ _ _ _ _ _ _ Fw Hk) as (s0 & _ & _ & Y & _). exact Y. }
      fold bs'. intros m6 M6. cbn [wp]. change (set_r b br') with b2. apply HQ. split; [|split; [|split]].
      * eapply hrep_moves; [exact M6| |intros a Ha Hb; apply (Hd4 a Hb), inh_hfp, Ha]. eapply hrep_moves; [exact M5| |intros a Ha Hb; apply (Hd3 a Hb), inh_hfp, Ha]. eapply hrep_ext; [exact RB4|]. intros i j _ _. cbv beta. ring.
      * eapply hmut_moves; [exact M6| |intros a Ha Hb; exact (Hd4 a Hb Ha)]. eapply hmut_moves; [exact M5|exact UB4|intros a Ha Hb; exact (Hd3 a Hb Ha)].
      * exact LB4.
      * assert (Hb2lt : forall a, hfp b2 a -> fst a < next m4) by (intros a Ha; apply (moves_lt _ _ _ _ _ MB5 Ha)).
        eapply (moves_trans _ _ (fun a => hfp b a \/ (hfp bs' a \/ rkblk rk a))).
        { eapply moves_ext; [| |eapply (moves_frame _ _ _ (hfp b)); [exact MB4|exact Hblt]]; intros a; unfold nowhere; tauto. }
        eapply (moves_trans _ _ (fun a => hfp b2 a \/ (hfp bs' a \/ rkblk rk a))).
        { eapply (moves_frame _ _ _ (fun a => hfp bs' a \/ rkblk rk a)); [exact MB5|]. intros a [Ha|Ha]; [apply (HBn a Ha)|apply (held_blk _ _ _ _ _ _ HK Ha)]. }
        eapply (moves_trans _ _ (fun a => hfp b2 a \/ hfp bs' a)).
        { eapply moves_ext; [| |eapply (moves_frame _ _ _ (fun a => hfp b2 a \/ hfp bs' a)); [exact M5|]]; [intros a; unfold nowhere; tauto|intros a; unfold nowhere; tauto|].
          intros a [Ha|Ha]; [apply Hb2lt, Ha|]. pose proof (HBn a Ha). pose proof (moves_le _ _ _ _ MB5). lia. }
        eapply moves_ext; [| |eapply (moves_frame _ _ _ (hfp b2)); [exact M6|]]; [intros a; unfold nowhere; tauto|intros a; unfold nowhere; tauto|].
        intros a Ha. pose proof (Hb2lt a Ha). pose proof (moves_le _ _ _ _ M5). lia.
    + (* dense target *)
      rewrite (proj2 (Nat.eqb_neq rs 0)), (proj2 (Nat.eqb_neq cs 0)) by lia. cbn [negb]. pose proof HU as HUx. inversion_clear HUx as [|? ? ? ? U1 U2 UW|]. set (b := HM rc cc None (Some bf) None 0 0 ds') in *.
      apply wp_bind. eapply wp_split_am with (rl := prt rc) (cl := prt cc); [symmetry; exact ERs|symmetry; exact ECs|intros i Hi; apply HRl, Hi|intros j Hj; apply HCl, Hj|exact P1|exact P2|exact ER|exact EC|exact Hposr|exact Hposc|exact UW|exact Z3|exact Z1|exact Z2|].
      cbv zeta. intros lb dsb LB VB. set (bs := HM rc cc None None (Some lb) rs cs dsb) in *.
      pose proof (views_mut bf rc cc rs cs lb dsb UW Z1 Z2 P1 P2 LB ER EC Hposr Hposc VB m) as UB. fold bs in UB.
      pose proof (views_fp bf rc cc rs cs lb dsb Z1 Z2 P1 P2 LB ER EC VB) as FB. fold bs in FB.
      apply wp_bind. eapply (wp_addsons (add_hmatrix O svd rank alpha) l rc cc lb rs cs dsb (fun i => csz (prt rc i)) (fun j => csz (prt cc j)) D (fun i j => (D i j + alpha * E i j)%F)); [exact P1|exact P2|exact LB|exact ER|exact EC| | |exact UB|exact P3| |].
      { intros i j s Hi Hj Hs. rewrite (VB i j s Hi Hj Hs). auto. }
      { intros i j s Hi Hj Hs. eapply (views_part bf rc cc rs cs lb Z1 Z2 ER EC VB m D i j s); eassumption. }
      { intros i j x s F1 m2 Hi Hj Hx Hs HM HRs HUs. destruct (HPt i j x Hi Hj Hx) as (_ & _ & Y3).
        assert (Hdx : disj (inh x) (fpl lb)) by (intros a Ha Hb; apply (Hinx _ _ Hx a Ha); apply hfp_full, FB, hfp_super; exact Hb).
        eapply (Hson i j x Hi Hj Hx s m2).
        - eapply hrep_moves; [exact HM|exact Y3|exact Hdx].
        - exact HRs.
        - exact HUs.
        - apply leaf_std. rewrite (VB i j s Hi Hj Hs). reflexivity.
        - rewrite (VB i j s Hi Hj Hs). reflexivity.
        - rewrite (VB i j s Hi Hj Hs). reflexivity.
        - intros a Ha Hb. apply (Hdx a Ha). exists (i + j * rs), s. auto.
        - auto. }
      fold bs. intros bs' m2 (RB2 & UB2 & LB2 & MB2). apply (views_like bf rc cc rs cs lb dsb Z1 Z2 P1 P2 LB ER EC VB) in LB2. fold bs in LB2. subst bs'.
      apply wp_bind. apply wp_del_views; [exact LB| |].
      { intros s Hs. apply In_nth_error in Hs as (k & Hk). destruct (view_at bf rc cc rs cs lb Z1 Z2 P1 P2 LB ER EC VB k s Hk) as (_ & _ & E1). do 4 eexists. split; [exact E1|reflexivity]. }
      cbn [wp]. apply HQ. eapply hpost_full; [exact HB|exact HU| |].
      * exact (views_back bf rc cc rs cs lb dsb Z1 Z2 P1 P2 LB ER EC VB m2 _ RB2).
      * destruct MB2 as (M1 & _ & _ & M4 & M5). split; [exact M1|]. intros a Ha. destruct (Nat.lt_ge_cases (fst a) (next m)) as [Hl|Hl].
        -- apply M4; [exact Hl|]. rewrite FB. exact Ha.
        -- rewrite (get_fresh m a Hl). apply M5; [right; exact Hl|]. rewrite FB. exact Ha.
    + (* subdivided target *)
      destruct (std_parts m rc cc l' rs' cs' ds' hs' ws' D SB B1 B2 B3 B6 B7) as (ERs' & ECs' & HRl' & HCl' & HPt').
      rewrite <- ERs in ERs'. rewrite <- ECs in ECs'. clear ERs ECs. subst rs' cs'.
      apply wp_bind, wp_assert; [apply Nat.eqb_refl|]. apply wp_bind, wp_assert; [apply Nat.eqb_refl|].
      eapply (wp_addsons (add_hmatrix O svd rank alpha) l rc cc l' rs cs ds' (fun i => csz (prt rc i)) (fun j => csz (prt cc j)) D (fun i j => (D i j + alpha * E i j)%F)); [exact P1|exact P2|exact B3|exact ER|exact EC| | |exact HU|exact P3| |exact HQ].
      { intros i j s Hi Hj Hs. destruct (HPt' i j s Hi Hj Hs) as (Y1 & Y2 & _). unfold hrows, hcols. rewrite Y1, Y2. auto. }
      { intros i j s Hi Hj Hs. apply (HPt' i j s Hi Hj Hs). }
      intros i j x s F1 m2 Hi Hj Hx Hs HM HRs HUs. destruct (HPt i j x Hi Hj Hx) as (_ & _ & Y3). destruct (HPt' i j s Hi Hj Hs) as (Y1 & Y2 & _).
      assert (Hdx : disj (inh x) (fpl l')) by (intros a Ha Hb; apply (Hinx _ _ Hx a Ha); apply hfp_super; exact Hb).
      eapply (Hson i j x Hi Hj Hx s m2).
      * eapply hrep_moves; [exact HM|exact Y3|exact Hdx].
      * exact HRs.
      * exact HUs.
      * eapply hstd_son; [exact SB|reflexivity|eapply nth_error_In, Hs].
      * congruence.
      * congruence.
      * intros a Ha Hb. apply (Hdx a Ha). exists (i + j * rs), s. auto.
      * auto.
Qed.
End P.
