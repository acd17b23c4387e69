(** * Products of H-matrices: result *)
From Coq Require Import Arith Lia List Bool Permutation Ring.
From Verif Require Import Fld Ord Prog Arr View Loop Line Spec Cluster Block BlockP Avector Amatrix AvectorP AmatrixP AmatrixP2 Rkmatrix RkSpec RkP Factor FactorSpec Chol CholSpec Qr QrSpec
  CbP CbmSpec CbmP CopSpec OrthoP SepP SepP2 Htrunc HtSpec HtP HtP2 HtP3 HtP4 Hmatrix HmSpec HmP HmP4 HlibSpec Harith HaP3 HaddSpec HmvP Hadd MgP MgP2 MgP3 HaddP HaddP2 HaddP3 HaddP4 HaddP5 HaddP6 Hmul HmulP HmulP2 HmulP3 HmulP4.
Import ListNotations.

Section P.
Context {K : fops} {G : ofops} (L : field_laws K) (O : qops K) (H : qlaws O) (HZ : exact_zero O).
Context (orth : Prop) (good : nat -> (nat -> K) -> Prop) (chosen : nat -> (nat -> K) -> nat -> Prop) (dom : nat -> nat -> Prop).
Context (svd : mat -> vec -> mat -> mat -> prog K unit) (rank : vec -> prog K nat) (Hsvd : svd_ok orth good dom svd) (Hrank : rank_ok good chosen rank).
Context (Hdom : forall r c, dom r c) (Hless : forall n s k, chosen n s k -> forall l, k <= l < n -> s l = f0).
Notation RL := (fl_ring K L).
Add Ring KringHmul5 : (rl_ring K (fl_ring K L)).
Local Notation hmx := (hmatrix G).
Implicit Types (m : mem K) (h s t x y z : hmx) (l : list hmx) (D E U V X Y Z : nat -> nat -> K) (r src : rkm) (rc cc : cptr G).

(** A low-rank target: work on a subdivided temporary matrix *)
Lemma wp_spread_rk (loop : hmx -> prog K hmx) rc cc br ds' m D E rs cs (rsp csp : bool) (Q : hmx -> mem K -> Prop) : let b : hmx := HM rc cc (Some br) None None 0 0 ds' in
  hrep m b D -> hmut m b ->
  part_sons rsp rc = rs -> part_sons csp cc = cs -> (forall i, i < rs -> part_son (K := K) rsp rc i = Ret (prt rc i)) -> (forall j, j < cs -> part_son (K := K) csp cc j = Ret (prt cc j)) ->
  0 < rs -> 0 < cs -> nsum rs (fun i => csz (prt rc i)) = csz rc -> nsum cs (fun j => csz (prt cc j)) = csz cc ->
  (forall i, i < rs -> 0 < csz (prt rc i)) -> (forall j, j < cs -> 0 < csz (prt cc j)) ->
  (forall lb m1 dsb, let bs := HM rc cc None None (Some lb) rs cs dsb in length lb = rs * cs ->
     (forall i j s, i < rs -> j < cs -> nth_error lb (i + j * rs) = Some s -> rkleaf s /\ hm_rc s = prt rc i /\ hm_cc s = prt cc j /\ hrep m1 s (fun _ _ => f0)) ->
     hmut m1 bs -> moves m nowhere (hfp bs) m1 -> wp TT TT (loop bs) m1 (hpost m1 bs E)) ->
  (forall b' m', hpost m b (fun i j => D i j + E i j)%F b' m' -> Q b' m') ->
  wp TT TT (ztmp <- split_rkmatrix br rc cc rsp csp false ;; ztmp <- loop ztmp ;; xy <- merge_hmatrix_rkmatrix O svd rank ztmp ;; zr <- add_rkmatrix O svd rank f1 xy br ;;
    uninit_rkmatrix xy ;;; del_hmatrix ztmp ;;; Ret (set_r b zr)) m Q.
Proof.
  intros b HB HU ERs ECs HRl HCl P1 P2 ER EC Hposr Hposc Hloop HQ.
  apply wp_bind. eapply wp_split_rk with (rl := prt rc) (cl := prt cc); [exact ERs|exact ECs|exact HRl|exact HCl|exact P1|exact P2|exact ER|exact EC|exact Hposr|exact Hposc|].
  cbv zeta. intros lb m1 dsb LB SB1 UB MB. set (bs := HM rc cc None None (Some lb) rs cs dsb) in *.
  apply wp_bind. eapply wp_conseq; [apply (Hloop lb m1 dsb LB SB1 UB MB)|]. fold bs.
  cbv beta. intros bs' m2 (RB2 & UB2 & LB2 & MB2).
  pose proof (moves_trans _ _ _ _ _ _ MB MB2) as MB3.
  pose proof LB2 as LB2'. unfold bs in LB2'. inversion LB2' as [| |? ? ? lb' ? ? ? HF]; subst bs'. set (bs' := HM rc cc None None (Some lb') rs cs dsb) in *. clear LB2'.
  pose proof RB2 as RB2x. inversion_clear RB2x as [| |? ? ? ? ? ? hs2 ws2 ? _ _ N3 N4 N5 N6 N7]. pose proof UB2 as UB2x. inversion_clear UB2x as [| |? ? ? ? ? ? UU1 UU2].
  assert (Hleaf : forall i j s, i < rs -> j < cs -> nth_error lb' (i + j * rs) = Some s -> exists rc1 cc1 r1 ds1, s = HM rc1 cc1 (Some r1) None None 0 0 ds1 /\ held m2 r1 (hs2 i) (ws2 j) (fun p q => E (nsum i hs2 + p)%nat (nsum j ws2 + q)%nat)).
  { intros i j s Hi Hj Hs. destruct (nth_ex lb (i + j * rs) ltac:(rewrite LB; apply pos_lt; lia)) as (s0 & Hs0). destruct (SB1 i j s0 Hi Hj Hs0) as ((rc1 & cc1 & r1 & ds1 & E1) & _).
    pose proof (BlockP.Forall2_nth _ _ _ HF _ _ _ Hs0 Hs) as HLk. subst s0. inversion HLk as [? ? ? r2 ? X1 X2| |]. clear X1. subst s. exists rc1, cc1, r2, ds1. split; [reflexivity|].
    pose proof (N7 i j _ Hi Hj Hs) as HRs. pose proof (UU1 _ (nth_error_In _ _ Hs)) as HUs. destruct (N6 i j _ Hi Hj Hs) as [W1 W2]. unfold hrows, hcols in W1, W2. cbn in W1, W2.
    inversion_clear HRs as [? ? ? ? ? V1 V2 V3| |]. inversion_clear HUs as [? ? ? ? V4 V5 V6| |]. split; [exact V6|]. split; [exact V3|]. split; congruence. }
  apply wp_bind. eapply (wp_merge_all L O H HZ orth good chosen dom svd rank Hsvd Hrank Hdom Hless lb' rs cs hs2 ws2 E m2 P1 P2 N3 Hleaf (csz rc) (csz cc)); [exact N4|exact N5|reflexivity|].
  intros rk m3 HK MK. pose proof (moves_add _ _ _ _ _ MB3 MK) as MB4.
  assert (Hblt : forall a, hfp b a -> fst a < next m) by (intros a Ha; eapply hfp_lt; eassumption).
  assert (HB3 : hrep m3 b D) by (eapply hrep_moves; [exact MB4|exact HB|apply disj_nowhere]). assert (HU3 : hmut m3 b) by (eapply hmut_moves; [exact MB4|exact HU|apply disj_nowhere]).
  assert (HKn : forall a, rkblk rk a -> next m <= fst a) by (intros a Ha; apply (moves_new _ _ _ _ MB4); right; exact Ha).
  assert (HBn : forall a, hfp bs' a -> next m <= fst a < next m3).
  { intros a Ha. split; [apply (moves_new _ _ _ _ MB3 Ha)|]. pose proof (moves_lt _ _ _ _ _ MB3 Ha). pose proof (moves_le _ _ _ _ MK). lia. }
  pose proof HK as (HK1 & HK2 & HK3 & HK4).
  apply wp_bind. eapply (wp_add_rk_x L O H HZ orth good chosen dom svd rank Hsvd Hrank Hdom Hless f1 rk rc cc br ds' m3 D E); [exact HB3|exact HU3|exact HK2|exact HK3|exact HK4| |].
  { intros a Ha Hb. assert (Ha' : rkblk rk a) by (destruct Ha as [Ha|Ha]; apply inm_blk in Ha; [left|right]; exact Ha). pose proof (HKn a Ha'). pose proof (Hblt a Hb). lia. }
  intros br' m4 (RB4 & UB4 & LB4 & MB5). set (b2 := HM rc cc (Some br') None None 0 0 ds') in *. fold b in MB5.
  assert (Hd1 : disj (rkblk rk) (hfp b)) by (intros a Ha Hb; pose proof (HKn a Ha); pose proof (Hblt a Hb); lia).
  assert (Hd2 : disj (hfp bs') (hfp b)) by (intros a Ha Hb; pose proof (HBn a Ha); pose proof (Hblt a Hb); lia).
  assert (Hd3 : disj (rkblk rk) (hfp b2)) by (eapply moves_disj; [exact MB5|intros a; apply (held_blk _ _ _ _ _ _ HK)|exact Hd1]).
  assert (Hd4 : disj (hfp bs') (hfp b2)) by (eapply moves_disj; [exact MB5|intros a Ha; apply (HBn a Ha)|exact Hd2]).
  assert (Hd5 : disj (hfp bs') (rkblk rk)).
  { intros a Ha Hb. pose proof (moves_lt _ _ _ _ _ MB3 Ha). pose proof (moves_new _ _ _ _ MK Hb). lia. }
  apply wp_bind. eapply wp_drop_h; [eapply held_moves; [exact MB5|exact HK|exact Hd1]|]. intros m5 M5.
  assert (RBs3 : hrep m3 bs' E) by (eapply hrep_moves; [exact MK|exact RB2|apply disj_nowhere]).
  assert (UBs3 : hmut m3 bs') by (eapply hmut_moves; [exact MK|exact UB2|apply disj_nowhere]).
  assert (RBs4 : hrep m4 bs' E) by (eapply hrep_moves; [exact MB5|exact RBs3|intros a Ha; apply Hd2, inh_hfp, Ha]).
  assert (UBs4 : hmut m4 bs') by (eapply hmut_moves; [exact MB5|exact UBs3|exact Hd2]).
  assert (RBs5 : hrep m5 bs' E) by (eapply hrep_moves; [exact M5|exact RBs4|intros a Ha; apply Hd5, inh_hfp, Ha]).
  assert (UBs5 : hmut m5 bs') by (eapply hmut_moves; [exact M5|exact UBs4|exact Hd5]).
  assert (Fw : forest m5 lb' lb' (partof rs hs2 ws2 E) m5).
  { eapply (forest_sons m5 rc cc); [exact N3| |exact UBs5]. pose proof RBs5 as RBs5x. inversion_clear RBs5x as [| |? ? ? ? ? ? hs3 ws3 ? _ _ _ _ _ J6 J7]. intros i j s Hi Hj Hs. specialize (J7 i j s Hi Hj Hs).
    assert (EH : forall i, i < rs -> hs3 i = hs2 i) by (intros i' Hi'; destruct (nth_ex lb' (i' + 0 * rs) ltac:(rewrite N3; apply pos_lt; lia)) as (s' & Hs'); destruct (J6 i' 0 s' Hi' P2 Hs'); destruct (N6 i' 0 s' Hi' P2 Hs'); congruence).
    assert (EW : forall j, j < cs -> ws3 j = ws2 j) by (intros j' Hj'; destruct (nth_ex lb' (0 + j' * rs) ltac:(rewrite N3; apply pos_lt; lia)) as (s' & Hs'); destruct (J6 0 j' s' P1 Hj' Hs'); destruct (N6 0 j' s' P1 Hj' Hs'); congruence).
    rewrite (nsum_ext' i hs3 hs2) in J7 by (intros; apply EH; lia). rewrite (nsum_ext' j ws3 ws2) in J7 by (intros; apply EW; lia). exact J7. }
  apply wp_bind. eapply (wp_del_rks rc cc lb' rs cs dsb m5 (partof rs hs2 ws2 E)); [exact N3| | |exact UBs5|].
  { intros s Hs. apply In_nth_error in Hs as (k & Hk). assert (Hlt : k < rs * cs) by (rewrite <- N3; apply nth_error_Some; congruence).
    destruct (Hleaf (k mod rs) (k / rs) s) as (rc1 & cc1 & r1 & ds1 & E1 & _); [apply Nat.mod_upper_bound; lia|apply Nat.div_lt_upper_bound; lia| |exists rc1, cc1, r1, ds1; exact E1].
    replace (k mod rs + k / rs * rs) with k by (pose proof (Nat.div_mod k rs ltac:(lia)); lia). exact Hk. }
  { intros k s Hk. destruct (forest_get _ _ _ _ _ _ _ Fw Hk) as (s0 & _ & _ & Y & _). exact Y. }
  fold bs'. intros m6 M6. cbn [wp]. change (set_r b br') with b2. apply HQ. fold b2. split; [|split; [|split]].
  * eapply hrep_moves; [exact M6| |intros a Ha Hb; apply (Hd4 a Hb), inh_hfp, Ha]. eapply hrep_moves; [exact M5| |intros a Ha Hb; apply (Hd3 a Hb), inh_hfp, Ha]. eapply hrep_ext; [exact RB4|]. intros i j _ _. cbv beta. ring.
  * eapply hmut_moves; [exact M6| |intros a Ha Hb; exact (Hd4 a Hb Ha)]. eapply hmut_moves; [exact M5|exact UB4|intros a Ha Hb; exact (Hd3 a Hb Ha)].
  * exact LB4.
  * assert (Hb2lt : forall a, hfp b2 a -> fst a < next m4) by (intros a Ha; apply (moves_lt _ _ _ _ _ MB5 Ha)).
    eapply (moves_trans _ _ (fun a => hfp b a \/ (hfp bs' a \/ rkblk rk a))).
    { eapply moves_ext; [| |eapply (moves_frame _ _ _ (hfp b)); [exact MB4|exact Hblt]]; intros a; unfold nowhere; tauto. }
    eapply (moves_trans _ _ (fun a => hfp b2 a \/ (hfp bs' a \/ rkblk rk a))).
    { eapply (moves_frame _ _ _ (fun a => hfp bs' a \/ rkblk rk a)); [exact MB5|]. intros a [Ha|Ha]; [apply (HBn a Ha)|apply (held_blk _ _ _ _ _ _ HK Ha)]. }
    eapply (moves_trans _ _ (fun a => hfp b2 a \/ hfp bs' a)).
    { eapply moves_ext; [| |eapply (moves_frame _ _ _ (fun a => hfp b2 a \/ hfp bs' a)); [exact M5|]]; [intros a; unfold nowhere; tauto|intros a; unfold nowhere; tauto|].
      intros a [Ha|Ha]; [apply Hb2lt, Ha|]. pose proof (HBn a Ha). pose proof (moves_le _ _ _ _ MB5). lia. }
    eapply moves_ext; [| |eapply (moves_frame _ _ _ (hfp b2)); [exact M6|]]; [intros a; unfold nowhere; tauto|intros a; unfold nowhere; tauto|].
    intros a Ha. pose proof (Hb2lt a Ha). pose proof (moves_le _ _ _ _ M5). lia.
Qed.

Lemma trc_size (t : bool) h : (if t then hcols h else hrows h) = csz (trc t h).
Proof. destruct t; reflexivity. Qed.
Lemma tcc_size (t : bool) h : (if t then hrows h else hcols h) = csz (tcc t h).
Proof. destruct t; reflexivity. Qed.

Lemma wp_addmul alpha (xt yt : bool) : forall x y z m X Y Z (Q : hmx -> mem K -> Prop), hrep m x X -> hrep m y Y -> hrep m z Z -> hmut m z -> hstd x -> hstd y -> hstd z -> hpos x -> hpos y ->
  hm_rc z = trc xt x -> hm_cc z = tcc yt y -> tcc xt x = trc yt y -> disj (inh x) (hfp z) -> disj (inh y) (hfp z) ->
  (forall z' m', hpost m z (fun i j => Z i j + alpha * prodf xt yt (csz (tcc xt x)) X Y i j)%F z' m' -> Q z' m') ->
  wp TT TT (addmul_hmatrix O svd rank alpha xt yt x y z) m Q.
Proof.
  induction x as [x IH] using hsize_ind. intros y z m X Y Z Q HX HY HR HU SX SY SZ PX PY Erc Ecc Emc Dx Dy HQ.
  assert (Ar : hrows z = csz (trc xt x)) by (unfold hrows; rewrite Erc; reflexivity).
  assert (Ac : hcols z = csz (tcc yt y)) by (unfold hcols; rewrite Ecc; reflexivity).
  inversion HX as [rc cc r ds E0 Z1 Z2 Z3|rc cc f ds E0 Z1 Z2 Z3|rc cc l rs cs ds hs ws E0 P1 P2 P3 P4 P5 P6 P7]; subst x; subst E0; cbn [addmul_hmatrix].
  all: apply wp_bind, wp_assert; [rewrite Erc; apply cp_eqb_refl|]; apply wp_bind, wp_assert; [rewrite Ecc; apply cp_eqb_refl|]; apply wp_bind, wp_assert; [rewrite Emc; apply cp_eqb_refl|].
  - (* low-rank x *)
    assert (En : csz (tcc xt (HM rc cc (Some r) None None 0 0 ds)) = mrows (if xt then rk_A r else rk_B r)) by (destruct xt; cbn; congruence).
    eapply (wp_xr L O H HZ orth good chosen dom svd rank Hsvd Hrank Hdom Hless alpha xt yt r y z m X Y Z); [exact Z3|exact HY|exact HR|exact HU| | | |].
    + rewrite Ar. destruct xt; cbn; congruence.
    + rewrite <- En, Emc. rewrite trc_size. reflexivity.
    + rewrite Ac, tcc_size. reflexivity.
    + intros z' m' HP. apply HQ. rewrite En. exact HP.
  - (* dense x *)
    assert (En : csz (tcc xt (HM rc cc None (Some f) None 0 0 ds)) = Harith.tcols xt f) by (destruct xt; cbn; congruence).
    eapply (wp_xf L O H HZ orth good chosen dom svd rank Hsvd Hrank Hdom Hless alpha xt yt f y z m X Y Z); [exact Z3|exact HY|exact HR|exact HU| | | | |exact Dy|].
    + rewrite Ar. destruct xt; cbn; congruence.
    + rewrite <- En, Emc. rewrite trc_size. reflexivity.
    + rewrite Ac, tcc_size. reflexivity.
    + intros a Ha. apply Dx. eapply inh_f; [reflexivity|exact Ha].
    + intros z' m' HP. apply HQ. rewrite En. exact HP.
  - set (x := HM rc cc None None (Some l) rs cs ds) in *. cbn match. apply wp_bind, wp_assert; [reflexivity|].
    inversion HY as [rc' cc' r' ds' E0 Z1 Z2 Z3|rc' cc' f' ds' E0 Z1 Z2 Z3|rc' cc' l' rs' cs' ds' hs' ws' E0 B1 B2 B3 B4 B5 B6 B7]; subst y; subst E0; cbn [hm_f hm_r].
    + (* low-rank y *)
      assert (En : csz (tcc xt x) = mrows (if yt then rk_B r' else rk_A r')) by (rewrite Emc; destruct yt; cbn; congruence).
      eapply (wp_yr L O H HZ orth good chosen dom svd rank Hsvd Hrank Hdom Hless alpha xt yt x r' z m X Y Z); [exact HX|exact Z3|exact HR|exact HU| | | |].
      * rewrite Ac. destruct yt; cbn; congruence.
      * rewrite <- En, tcc_size. reflexivity.
      * rewrite Ar, trc_size. reflexivity.
      * intros z' m' HP. apply HQ. rewrite En. exact HP.
    + (* dense y *)
      assert (En : csz (tcc xt x) = Harith.trows yt f') by (rewrite Emc; destruct yt; cbn; congruence).
      eapply (wp_yf L O H HZ orth good chosen dom svd rank Hsvd Hrank Hdom Hless alpha xt yt x f' z m X Y Z); [exact HX|exact Z3|exact HR|exact HU| | | | |exact Dx|].
      * rewrite Ac. destruct yt; cbn; congruence.
      * rewrite <- En, tcc_size. reflexivity.
      * rewrite Ar, trc_size. reflexivity.
      * intros a Ha. apply Dy. eapply inh_f; [reflexivity|exact Ha].
      * intros z' m' HP. apply HQ. rewrite En. exact HP.
    + set (y := HM rc' cc' None None (Some l') rs' cs' ds') in *. cbn [hm_son y]. apply wp_bind, wp_assert; [reflexivity|].
      destruct (tparts xt m rc cc l rs cs ds X HX SX PX) as ((X1 & X2 & X3 & X4) & (X5 & X6) & (X7 & X8) & (X9 & X10) & X11).
      destruct (tparts yt m rc' cc' l' rs' cs' ds' Y HY SY PY) as ((Y1 & Y2 & Y3 & Y4) & (Y5 & Y6) & (Y7 & Y8) & (Y9 & Y10) & Y11).
      fold x in X1, X2, X3, X4, X5, X6, X7, X8, X9, X10, X11. fold y in Y1, Y2, Y3, Y4, Y5, Y6, Y7, Y8, Y9, Y10, Y11.
      assert (EM : trsons yt y = tcsons xt x) by (rewrite Y3, X4, Emc; reflexivity).
      apply wp_bind, wp_assert; [rewrite EM; apply Nat.eqb_refl|].
      change (if xt then rs else cs) with (tcsons xt x). change (if xt then cs else rs) with (trsons xt x). cbv zeta.
      change (let rsons := trsons xt x in True) with True.
      set (c1 := trc xt x) in *. set (cm := tcc xt x) in *. set (c2 := tcc yt y) in *. rewrite <- Emc in Y3, Y5, Y7, Y9, Y11.
      destruct (X11 0 0 X1 X2) as (x0 & Dx0 & Nx0 & Cx0 & _). destruct (Y11 0 0 Y1 Y2) as (y0 & Dy0 & Ny0 & _ & Cy0 & _).
      assert (T0 : forall (t : bool) a b, tidx t a b 0 0 = 0) by (intros [] a b; reflexivity). rewrite T0 in Nx0, Ny0.
      apply wp_bind. rewrite (sget_some _ _ _ Nx0). cbn [wp]. apply wp_bind. rewrite (sget_some _ _ _ Ny0). cbn [wp]. fold c1 c2. rewrite Cx0, Cy0.
      destruct (split_flag (K := K) c1) as (F1 & F2 & F3 & F4). destruct (split_flag (K := K) c2) as (F5 & F6 & F7 & F8).
      set (rsp := negb (cp_eqb (prt c1 0) c1)) in *. set (csp := negb (cp_eqb (prt c2 0) c2)) in *.
      set (R := trsons xt x) in *. set (M := tcsons xt x) in *. set (C := tcsons yt y) in *. rewrite EM in Y3, Y5, Y7, Y9, Y11.
      assert (Hxlt : forall a, inh x a -> fst a < next m) by (intros a Ha; exact (alloc_lt _ _ (inh_alloc _ _ _ _ HX Ha))).
      assert (Hylt : forall a, inh y a -> fst a < next m) by (intros a Ha; exact (alloc_lt _ _ (inh_alloc _ _ _ _ HY Ha))).
      (* one submatrix of the result *)
      assert (Hrow : forall i k s m1 (F F' : addr -> Prop) D1, i < R -> k < C -> hm_rc s = prt c1 i -> hm_cc s = prt c2 k -> hstd s -> moves m F F' m1 -> disj (inh x) F -> disj (inh y) F -> disj (inh x) (hfp s) -> disj (inh y) (hfp s) ->
        hrep m1 s D1 -> hmut m1 s ->
        wp TT TT (mulrow xt yt (Some (map (addmul_hmatrix O svd rank alpha xt yt) l)) (Some l') R M C i k s) m1
          (hpost m1 s (fun p q => D1 p q + alpha * prodf xt yt (csz cm) X Y (nsum i (fun i => csz (prt c1 i)) + p) (nsum k (fun k => csz (prt c2 k)) + q))%F)).
      { intros i k s m1 F F' D1 Hi Hk Cs1 Cs2 Ss M1 Dx1 Dy1 Dx2 Dy2 R1 U1.
        eapply wp_conseq; [eapply (wp_mulrow L xt yt (addmul_hmatrix O svd rank alpha xt yt) l l' R M C i k s m1 alpha D1 (fun p c => tr xt X (nsum i (fun i => csz (prt c1 i)) + p) c) (fun c q => tr yt Y c (nsum k (fun k => csz (prt c2 k)) + q)) (fun j => csz (prt cm j))); [|exact R1|exact U1]|].
        - intros j Hj. destruct (X11 i j Hi Hj) as (a & Da & Na & Ca1 & Ca2 & Ra & Ta). destruct (Y11 j k Hj Hk) as (b & Db & Nb & Cb1 & Cb2 & Rb & Tb).
          exists a, b. split; [exact Na|]. split; [exact Nb|]. intros s1 m2 E1 L1 M2 R2 U2.
          pose proof (nth_error_In _ _ Na) as Ia. pose proof (nth_error_In _ _ Nb) as Ib. destruct (hlike_cl _ _ L1) as [G1 G2].
          assert (Sa : forall q, inh a q -> inh x q) by (intros q Hq; eapply inh_son; [reflexivity|exact Ia|exact Hq]).
          assert (Sb : forall q, inh b q -> inh y q) by (intros q Hq; eapply inh_son; [reflexivity|exact Ib|exact Hq]).
          pose proof (moves_le _ _ _ _ M1) as Hle.
          apply (IH l a eq_refl Ia b s1 m2 Da Db E1).
          + eapply hrep_moves; [exact M2|eapply hrep_moves; [exact M1|exact Ra|]|]; intros q Hq; [apply Dx1, Sa, Hq|apply Dx2, Sa, Hq].
          + eapply hrep_moves; [exact M2|eapply hrep_moves; [exact M1|exact Rb|]|]; intros q Hq; [apply Dy1, Sb, Hq|apply Dy2, Sb, Hq].
          + exact R2.
          + exact U2.
          + eapply hstd_son; [exact SX|reflexivity|exact Ia].
          + eapply hstd_son; [exact SY|reflexivity|exact Ib].
          + eapply hstd_like; [exact L1|exact Ss].
          + eapply hpos_son; [exact PX|reflexivity|exact Ia].
          + eapply hpos_son; [exact PY|reflexivity|exact Ib].
          + congruence.
          + congruence.
          + congruence.
          + intros q Hq. eapply (moves_disj _ _ _ (inh a)); [exact M2| | |exact Hq]; [intros q' Hq'; pose proof (Hxlt q' (Sa q' Hq')); lia|intros q' Hq'; apply Dx2, Sa, Hq'].
          + intros q Hq. eapply (moves_disj _ _ _ (inh b)); [exact M2| | |exact Hq]; [intros q' Hq'; pose proof (Hylt q' (Sb q' Hq')); lia|intros q' Hq'; apply Dy2, Sb, Hq'].
          + intros z' m' HP. eapply hpost_ext; [exact HP|]. intros p q _ _. cbv beta. f_equal. f_equal. rewrite Ca2. unfold prodf. apply sum_ext. intros c _. rewrite Ta, Tb. reflexivity.
        - cbv beta. intros s' m' HP. eapply hpost_ext; [exact HP|]. intros p q _ _. cbv beta. rewrite X8. reflexivity. }
      clear IH.
      inversion HR as [rcz ccz zr dsz E0 Z1 Z2 Z3|rcz ccz zf dsz E0 Z1 Z2 Z3|rcz ccz lz rsz csz' dsz hsz wsz E0 D1 D2 D3 D4 D5 D6 D7]; subst z; subst E0; cbn [hm_rc hm_cc] in Erc, Ecc; subst rcz ccz; cbn [hm_f hm_r hm_rc hm_cc].
      * (* low-rank target *)
        set (z := HM c1 c2 (Some zr) None None 0 0 dsz) in *.
        eapply (wp_spread_rk (mulsons xt yt (Some (map (addmul_hmatrix O svd rank alpha xt yt) l)) (Some l') R M C) c1 c2 zr dsz m Z (fun i j => alpha * prodf xt yt (csz cm) X Y i j)%F R C rsp csp);
          [exact HR|exact HU|congruence|congruence|intros i Hi; rewrite F2; apply X5, Hi|intros j Hj; rewrite F6; apply Y6, Hj|exact X1|exact Y2|exact X7|exact Y8|exact X9|exact Y10| |exact HQ].
        cbv zeta. intros lb m1 dsb LB SB1 UB MB. set (bs := HM c1 c2 None None (Some lb) R C dsb) in *.
        eapply (wp_mulsons xt yt _ (Some l') R M C c1 c2 lb dsb (fun i => csz (prt c1 i)) (fun j => csz (prt c2 j)) (fun _ _ => f0) (fun i j => alpha * prodf xt yt (csz cm) X Y i j)%F m1); [exact X1|exact Y2|exact LB|exact X7|exact Y8| | |exact UB| |auto].
        { intros i j s Hi Hj Hs. destruct (SB1 i j s Hi Hj Hs) as (_ & G1 & G2 & _). unfold hrows, hcols. rewrite G1, G2. auto. }
        { intros i j s Hi Hj Hs. apply (SB1 i j s Hi Hj Hs). }
        intros i j s F' m2 Hi Hj Hs M2 R2 U2. destruct (SB1 i j s Hi Hj Hs) as (G0 & G1 & G2 & _).
        assert (Hnew : forall a, fpl lb a -> next m <= fst a) by (intros a Ha; apply (moves_new _ _ _ _ MB); apply hfp_super; exact Ha).
        assert (Hns : forall a, hfp s a -> next m <= fst a) by (intros a Ha; apply Hnew; exists (i + j * R), s; auto).
        assert (M02 : moves m nowhere F' m2) by (eapply moves_trans; [exact MB|eapply moves_ext; [| |exact M2]; [intros a; symmetry; apply hfp_super|reflexivity]]).
        eapply wp_conseq; [eapply (Hrow i j s m2 nowhere F' (fun _ _ => f0) Hi Hj G1 G2); [|exact M02|apply disj_nowhere|apply disj_nowhere| | |exact R2|exact U2]|].
        { apply leaf_std. destruct G0 as (? & ? & ? & ? & ->). reflexivity. }
        { intros a Ha Hb. pose proof (Hxlt a Ha). pose proof (Hns a Hb). lia. }
        { intros a Ha Hb. pose proof (Hylt a Ha). pose proof (Hns a Hb). lia. }
        cbv beta. intros s' m' HP. eapply hpost_ext; [exact HP|]. intros p q _ _. cbv beta. ring.
      * (* dense target *)
        pose proof HU as HUx. inversion_clear HUx as [|? ? ? ? U1 U2 UW|]. set (z := HM c1 c2 None (Some zf) None 0 0 dsz) in *.
        apply wp_bind. eapply (wp_mulparts xt yt _ (Some l') R M C c1 c2 rsp csp zf Z (fun i j => Z i j + alpha * prodf xt yt (csz cm) X Y i j)%F m);
          [rewrite Y4; exact F7|rewrite X3; exact F3|intros i Hi; apply F4, X5, Hi|intros j Hj; apply F8, Y6, Hj|exact X7|exact Y8|exact X9|exact Y10|exact UW|exact Z1|exact Z2|exact Z3| |].
        { cbv zeta. intros i j m1 Hi Hj K1 R1 V1.
          assert (Hin : forall a, inm (subm zf (nsum i (fun i => csz (prt c1 i))) (csz (prt c1 i)) (nsum j (fun j => csz (prt c2 j))) (csz (prt c2 j))) a -> inm zf a).
          { intros a Ha. pose proof (nsum_in (fun i => csz (prt c1 i)) i R Hi). pose proof (nsum_in (fun j => csz (prt c2 j)) j C Hj). cbv beta in *. eapply inm_subm; [| |exact Ha]; lia. }
          assert (M1 : moves m (inm zf) (inm zf) m1) by (eapply moves_keeps; [exact K1|auto|intros a Ha; exact (alloc_lt _ _ (inm_alloc _ _ _ _ Z3 Ha))]).
          eapply (Hrow i j _ m1 (inm zf) (inm zf) (fun p q => Z (nsum i (fun i => csz (prt c1 i)) + p) (nsum j (fun j => csz (prt c2 j)) + q)) Hi Hj); [reflexivity|reflexivity|apply leaf_std; reflexivity|exact M1| | | | |exact R1|exact V1].
          - intros a Ha Hb. apply (Dx a Ha), hfp_full, Hb.
          - intros a Ha Hb. apply (Dy a Ha), hfp_full, Hb.
          - intros a Ha Hb. apply hfp_full in Hb. apply (Dx a Ha), hfp_full, Hin, Hb.
          - intros a Ha Hb. apply hfp_full in Hb. apply (Dy a Ha), hfp_full, Hin, Hb. }
        intros m1 V1 K1. cbn [wp]. apply HQ. eapply hpost_full; [exact HR|exact HU|exact V1|exact K1].
      * (* subdivided target *)
        destruct (std_parts m c1 c2 lz rsz csz' dsz hsz wsz Z SZ D1 D2 D3 D6 D7) as (ERz & ECz & HRz & HCz & HPz).
        rewrite <- X3 in ERz. rewrite <- Y4 in ECz. subst rsz csz'.
        eapply (wp_mulsons xt yt _ (Some l') R M C c1 c2 lz dsz (fun i => csz (prt c1 i)) (fun j => csz (prt c2 j)) Z (fun i j => Z i j + alpha * prodf xt yt (csz cm) X Y i j)%F m); [exact X1|exact Y2|exact D3|exact X7|exact Y8| | |exact HU| |exact HQ].
        { intros i j s Hi Hj Hs. destruct (HPz i j s Hi Hj Hs) as (G1 & G2 & _). unfold hrows, hcols. rewrite G1, G2. auto. }
        { intros i j s Hi Hj Hs. apply (HPz i j s Hi Hj Hs). }
        intros i j s F' m2 Hi Hj Hs M2 R2 U2. destruct (HPz i j s Hi Hj Hs) as (G1 & G2 & _).
        assert (Hins : forall a, hfp s a -> fpl lz a) by (intros a Ha; exists (i + j * R), s; auto).
        eapply (Hrow i j s m2 (fpl lz) F' (fun p q => Z (nsum i (fun i => csz (prt c1 i)) + p) (nsum j (fun j => csz (prt c2 j)) + q)) Hi Hj G1 G2); [eapply hstd_son; [exact SZ|reflexivity|eapply nth_error_In, Hs]|exact M2| | | | |exact R2|exact U2].
        -- intros a Ha Hb. apply (Dx a Ha), hfp_super, Hb.
        -- intros a Ha Hb. apply (Dy a Ha), hfp_super, Hb.
        -- intros a Ha Hb. apply (Dx a Ha), hfp_super, Hins, Hb.
        -- intros a Ha Hb. apply (Dy a Ha), hfp_super, Hins, Hb.
Qed.
End P.
