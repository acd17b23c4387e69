(** * Lower triangular parts of products: one factor is a leaf *)
From Coq Require Import Arith Lia List Bool Permutation Ring NArith.
From Verif Require Import Fld Ord Prog Arr View Loop Line Spec FactorSpec FactorP4 Cluster Block BlockP Avector Amatrix AvectorP AmatrixP AmatrixP2 Rkmatrix RkSpec RkP Factor Chol CholSpec Qr QrSpec Lr LrP
  CbP CbmSpec CbmP CopSpec OrthoP SepP SepP2 Htrunc HtSpec HtP HtP2 HtP3 HtP4 Hmatrix HmSpec HmP HmP3 HmP4 HlibSpec Harith HaSpec HaP HaP2 HaP3 HaP4 HaddSpec HmvP Hadd MgP MgP2 MgP3 HaddP HaddP2 HaddP3 HaddP4 HaddP5 HaddP6 Hmul HmulP HmulP2 HmulP3 HmulP4 HmulP5 Hfac HfacSpec HfacP HfacP2 HfacP3 HfacP4 HfacP5 Hchol HcholP HcholP2.
Import ListNotations.
Local Open Scope nat_scope.

Section P.
Context {K : fops} {G : ofops} (L : field_laws K) (O : qops K) (H : qlaws O) (HZ : exact_zero O).
Context (orth : Prop) (good : nat -> (nat -> K) -> Prop) (chosen : nat -> (nat -> K) -> nat -> Prop) (dom : nat -> nat -> Prop).
Context (svd : mat -> vec -> mat -> mat -> prog K unit) (rank : vec -> prog K nat) (Hsvd : svd_ok orth good dom svd) (Hrank : rank_ok good chosen rank).
Context (Hdom : forall r c, dom r c) (Hless : forall n s k, chosen n s k -> forall l, k <= l < n -> s l = f0).
Notation RL := (fl_ring K L).
Add Ring KringHchol3 : (rl_ring K (fl_ring K L)).
Local Notation hmx := (hmatrix G).
Implicit Types (m : mem K) (h x y z b : hmx) (l : list hmx) (D E U V W X Y Z : nat -> nat -> K) (rc cc : cptr G).

Lemma moves_dealloc m k : moves m (fun c => fst c = k) nowhere (dealloc m k).
Proof.
  split; [cbn; lia|]. split; [intros c []|]. split; [intros c []|]. split.
  - intros c _ Hn. rewrite get_dealloc. destruct (Nat.eqb_spec (fst c) k); [contradiction|reflexivity].
  - intros c Hc _. rewrite get_dealloc. destruct (Nat.eqb_spec (fst c) k) as [|N]; [reflexivity|]. destruct Hc as [|Hc]; [contradiction|]. apply get_next, Hc.
Qed.

(** The product is computed in a dense matrix *)
Lemma wp_lowfull alpha rows cols (mul : mat -> prog K unit) z m D P (Q : hmx -> mem K -> Prop) : fconj alpha = alpha -> hrep m z D -> hmut m z -> hstd z -> hpos z -> hdiag z -> rows = hrows z -> cols = hcols z ->
  (forall A m1 (F : addr -> Prop), mwf A -> mval m1 A (fun _ _ => f0) -> mrows A = rows -> mcols A = cols -> next m <= mblk A -> moves m nowhere F m1 ->
     wp TT TT (mul A) m1 (fun _ m2 => mval m2 A P /\ keeps (inm A) m1 m2)) ->
  (forall E z' m', hpost m z E z' m' -> lowerq (hrows z) E (fun i j => D i j + alpha * P i j)%F -> Q z' m') ->
  wp TT TT (lowfull O svd rank alpha rows cols mul z) m Q.
Proof.
  intros Hal HR HU HS HP Hd -> -> HM HQ. unfold lowfull. apply wp_bind. eapply s_init; [apply st_empty|]. intros A m1 RA CA S1.
  assert (NA : next m <= mblk A) by (destruct (st_old _ _ _ _ _ S1 _ (or_introl eq_refl)) as [[]|E]; exact E).
  pose proof (st_own _ _ _ _ _ 0 _ _ _ S1 eq_refl) as (A1 & A2 & A3 & A4).
  assert (M1 : moves m nowhere (fun c => fst c = mblk A) m1).
  { eapply moves_ext; [| |exact (st_moves m [] _ _ _ (fun (b : nat) (X : In b []) => match X with end) ltac:(cbn; intros q [[]|E]; exact E) S1)].
    - intros a. cbn. unfold nowhere. tauto.
    - intros a. cbn. intuition congruence. }
  clear S1. assert (Hin : forall c, inm A c -> fst c = mblk A) by (intros c Hc; apply inm_blk in Hc; exact Hc).
  apply wp_bind. apply wp_clear_amatrix; [exact A3|exact A4|apply TTw|]. intros m2 G2 K2. pose proof (moves_in _ _ _ _ _ M1 K2 Hin) as M2.
  apply wp_bind. eapply wp_conseq; [apply (HM A m2 (fun c => fst c = mblk A)); assumption|]. cbv beta. intros _ m3 [G3 K3]. pose proof (moves_in _ _ _ _ _ M2 K3 Hin) as M3.
  assert (Hda : disj (fun c => fst c = mblk A) (hfp z)).
  { intros c Hc Hb. pose proof (hfp_lt _ _ _ _ HR HU Hb). lia. }
  apply wp_bind. unfold add_lower_amatrix_hmatrix.
  eapply (wp_add_lower_am L O H HZ orth good chosen dom svd rank Hsvd Hrank Hdom Hless alpha z Hal z A (inm A) m3 D P).
  - eapply hlike_refl; exact HU.
  - eapply hrep_moves; [exact M3|exact HR|apply disj_nowhere].
  - eapply hmut_moves; [exact M3|exact HU|apply disj_nowhere].
  - exact HS.
  - exact HP.
  - exact Hd.
  - split; [exact G3|]. split; [exact RA|]. split; [exact CA|]. intros c. tauto.
  - intros c Hc. apply Hda, Hin, Hc.
  - intros E z' m4 HPo HE. apply wp_bind. unfold uninit_amatrix. rewrite A1. cbn [bind pfree wp]. pose proof (moves_le _ _ _ _ (proj2 (proj2 (proj2 HPo)))). pose proof (proj1 K2). pose proof (proj1 K3).
    split; [lia|]. split; [intros o; exact I|]. cbn [wp]. eapply HQ; [|exact HE]. eapply hpost_wrap; [exact HR|exact HU|exact M3|exact HPo|apply moves_dealloc].
Qed.

(** The product is computed in a low-rank matrix *)
Lemma wp_lowrk alpha rows cols k (left : bool) (cp mul : mat -> prog K unit) z m D U V (Q : hmx -> mem K -> Prop) : hrep m z D -> hmut m z -> hstd z -> hpos z -> hdiag z -> rows = hrows z -> cols = hcols z ->
  (forall A m1 (F : addr -> Prop), mwf A -> malloc m1 A -> mrows A = (if left then hrows z else hcols z) -> mcols A = k -> next m <= mblk A -> moves m nowhere F m1 ->
     wp TT TT (cp A) m1 (fun _ m2 => mval m2 A (if left then U else V) /\ keeps (inm A) m1 m2)) ->
  (forall B m1 (F : addr -> Prop), mwf B -> mval m1 B (fun _ _ => f0) -> mrows B = (if left then hcols z else hrows z) -> mcols B = k -> next m <= mblk B -> moves m nowhere F m1 ->
     wp TT TT (mul B) m1 (fun _ m2 => mval m2 B (if left then V else U) /\ keeps (inm B) m1 m2)) ->
  (forall E z' m', hpost m z E z' m' -> lowerq (hrows z) E (fun i j => D i j + alpha * lowrank k U V i j)%F -> Q z' m') ->
  wp TT TT (lowrk O svd rank alpha rows cols k left cp mul z) m Q.
Proof.
  intros HR HU HS HPz Hdz -> -> HF HM HQ. unfold lowrk, init_rkmatrix. apply wp_bind. apply wp_bind.
  eapply s_init; [apply st_empty|]. intros X m1 RX CX S1. apply wp_bind. eapply s_init; [exact S1|]. intros Y m2 RY CY S2. cbn [wp rk_A rk_B].
  assert (NX : next m <= mblk X) by (destruct (st_old _ _ _ _ _ S2 _ (or_intror (or_introl eq_refl))) as [[]|E]; exact E).
  assert (NY : next m <= mblk Y) by (destruct (st_old _ _ _ _ _ S2 _ (or_introl eq_refl)) as [[]|E]; exact E).
  pose proof (st_own _ _ _ _ _ 1 _ _ _ S2 eq_refl) as (A1 & A2 & A3 & A4). pose proof (st_own _ _ _ _ _ 0 _ _ _ S2 eq_refl) as (B3 & B4 & B5 & B6).
  pose proof (st_neq _ _ _ _ _ 0 1 _ _ S2 eq_refl eq_refl ltac:(lia)) as HN. cbn in HN.
  assert (M2 : moves m nowhere (rkblk (Rk X Y k)) m2).
  { eapply moves_ext; [| |exact (st_moves m [] _ _ _ (fun (b : nat) (X : In b []) => match X with end) ltac:(cbn; intros q [[]|E]; exact E) S2)].
    - intros a. cbn. unfold nowhere. tauto.
    - intros a. cbn. unfold rkblk. cbn. intuition congruence. }
  cbn in A1, A2, A3, A4, B3, B4, B5, B6. clear S1 S2.
  assert (IX : forall a, inm X a -> rkblk (Rk X Y k) a) by (intros a Ha; apply inm_blk in Ha; left; exact Ha).
  assert (IY : forall a, inm Y a -> rkblk (Rk X Y k) a) by (intros a Ha; apply inm_blk in Ha; right; exact Ha).
  assert (Hfill : wp TT TT (if left then cp X ;;; clear_amatrix Y ;;; mul Y else clear_amatrix X ;;; mul X ;;; cp Y) m2 (fun _ m5 => mval m5 X U /\ mval m5 Y V /\ moves m nowhere (rkblk (Rk X Y k)) m5 /\ next m2 <= next m5)).
  { destruct left.
    - apply wp_bind. eapply wp_conseq; [apply (HF X m2 (rkblk (Rk X Y k))); assumption|]. cbv beta. intros _ m3 [G1 K3]. pose proof (moves_in _ _ _ _ _ M2 K3 IX) as M3.
      apply wp_bind. apply wp_clear_amatrix; [exact B5|eapply malloc_keeps; [exact B6|exact K3|apply blk_disj; congruence]|apply TTw|]. intros m4 G2 K4. pose proof (moves_in _ _ _ _ _ M3 K4 IY) as M4.
      eapply wp_conseq; [apply (HM Y m4 (rkblk (Rk X Y k))); assumption|]. cbv beta. intros _ m5 [G3 K5]. pose proof (moves_in _ _ _ _ _ M4 K5 IY) as M5.
      split; [eapply mval_keeps; [eapply mval_keeps; [exact G1|exact K4|apply blk_disj; congruence]|exact K5|apply blk_disj; congruence]|]. split; [exact G3|]. split; [exact M5|].
      pose proof (proj1 K3); pose proof (proj1 K4); pose proof (proj1 K5); lia.
    - apply wp_bind. apply wp_clear_amatrix; [exact A3|exact A4|apply TTw|]. intros m3 G1 K3. pose proof (moves_in _ _ _ _ _ M2 K3 IX) as M3.
      apply wp_bind. eapply wp_conseq; [apply (HM X m3 (rkblk (Rk X Y k))); assumption|]. cbv beta. intros _ m4 [G2 K4]. pose proof (moves_in _ _ _ _ _ M3 K4 IX) as M4.
      eapply wp_conseq; [apply (HF Y m4 (rkblk (Rk X Y k))); try assumption; eapply malloc_keeps; [eapply malloc_keeps; [exact B6|exact K3|apply blk_disj; congruence]|exact K4|apply blk_disj; congruence]|].
      cbv beta. intros _ m5 [G3 K5]. pose proof (moves_in _ _ _ _ _ M4 K5 IY) as M5.
      split; [eapply mval_keeps; [exact G2|exact K5|apply blk_disj; congruence]|]. split; [exact G3|]. split; [exact M5|].
      pose proof (proj1 K3); pose proof (proj1 K4); pose proof (proj1 K5); lia. }
  apply wp_bind. eapply wp_conseq; [exact Hfill|]. cbv beta. intros _ m5 (GX & GY & M5 & HN5). clear Hfill.
  assert (HH : held m5 (Rk X Y k) (hrows z) (hcols z) (lowrank k U V)).
  { split; [|split; [|cbn; auto]].
    - unfold rkown; cbn [rk_A rk_B rk_k]. repeat split; auto; try lia; eapply mval_alloc; eassumption.
    - exists U, V. cbn [rk_A rk_B rk_k]. repeat split; auto. }
  pose proof HH as (HH1 & HH2 & HH3 & HH4). cbn [rk_A rk_B] in HH3, HH4.
  assert (Hd : disj (rkblk (Rk X Y k)) (hfp z)).
  { intros a Ha Hb. pose proof (moves_new _ _ _ _ M5 Ha). pose proof (hfp_lt _ _ _ _ HR HU Hb). lia. }
  apply wp_bind. unfold add_lower_rkmatrix_hmatrix.
  eapply (wp_add_lower_rk L O H HZ orth good chosen dom svd rank Hsvd Hrank Hdom Hless alpha z z (Rk X Y k) (inrk (Rk X Y k)) m5 D (lowrank k U V)).
  - eapply hlike_refl; exact HU.
  - eapply hrep_moves; [exact M5|exact HR|apply disj_nowhere].
  - eapply hmut_moves; [exact M5|exact HU|apply disj_nowhere].
  - exact HS.
  - exact HPz.
  - exact Hdz.
  - split; [exact HH2|]. split; [exact HH3|]. split; [exact HH4|]. intros c. tauto.
  - intros a Ha. apply Hd. destruct Ha as [Ha|Ha]; apply inm_blk in Ha; [left|right]; exact Ha.
  - intros E z' m6 P6 HE. apply wp_bind. eapply wp_drop_h; [eapply held_moves; [apply P6|exact HH|exact Hd]|]. intros m7 M7. cbn [wp].
    eapply HQ; [eapply hpost_wrap; [exact HR|exact HU|exact M5|exact P6|exact M7]|exact HE].
Qed.

Lemma lowerq_ext n E W W' : lowerq n E W -> (forall i j, i < n -> j <= i -> W' i j = W i j) -> lowerq n E W'.
Proof. intros HE HW p q Hq Hp. rewrite HW by lia. apply HE; assumption. Qed.

Lemma hdiag_sq z : hdiag z -> hcols z = hrows z.
Proof. intros [rc f ds|rc l n ds Hn]; reflexivity. Qed.

(** [x] is dense *)
Lemma wp_lxf alpha (xt yt : bool) xf y z m X Y Z (Q : hmx -> mem K -> Prop) : fconj alpha = alpha -> mval m xf X -> hrep m y Y -> hrep m z Z -> hmut m z -> hstd z -> hpos z -> hdiag z ->
  Harith.trows xt xf = hrows z -> Harith.tcols xt xf = csz (trc yt y) -> hcols z = csz (tcc yt y) ->
  (forall E z' m', hpost m z E z' m' -> lowerq (hrows z) E (fun i j => Z i j + alpha * prodf xt yt (Harith.tcols xt xf) X Y i j)%F -> Q z' m') ->
  wp TT TT (lower_xf O svd rank alpha xt yt xf y z) m Q.
Proof.
  intros Hal HX HY HR HU HS HP Hdz E1 E2 E3 HQ. unfold lower_xf.
  assert (T1 : Harith.trows (negb xt) xf = Harith.tcols xt xf) by (destruct xt; reflexivity).
  assert (T2 : Harith.tcols (negb xt) xf = Harith.trows xt xf) by (destruct xt; reflexivity).
  assert (S1 : csz (trc yt y) = if negb yt then hrows y else hcols y) by (destruct yt; reflexivity).
  assert (S2 : csz (tcc yt y) = if negb yt then hcols y else hrows y) by (destruct yt; reflexivity).
  destruct (Harith.trows xt xf <=? Harith.tcols xt xf) eqn:Ec.
  - eapply (wp_lowfull alpha) with (D := Z) (P := prodf xt yt (Harith.tcols xt xf) X Y); try assumption; [symmetry; exact E3|].
    intros A m1 F A1 A2 A3 A4 A5 A6.
    eapply (wp_addmul_h RL y TT TT f1 (negb yt) (negb xt) xf true A Y (tr (negb xt) X) (fun _ _ => f0)).
    + exact A1.
    + eapply hrep_moves; [exact A6|exact HY|apply disj_nowhere].
    + unfold HaP3.tval. eapply mval_ext; [eapply mval_moves; [exact A6|exact HX|apply disj_nowhere]|]. intros i j _ _. symmetry. apply (tr_tr RL).
    + unfold HaP3.tval. eapply mval_ext; [exact A2|]. intros i j _ _. cbn [tr]. symmetry; apply (fconj_0 RL).
    + rewrite T1, E2. exact S1.
    + cbn. rewrite A4. exact S2.
    + rewrite T2. cbn. congruence.
    + intros c Hc Hb. pose proof (alloc_lt _ _ (inm_alloc _ _ _ _ HX Hc)). apply inm_blk in Hb. lia.
    + intros c Hc Hb. pose proof (alloc_lt _ _ (inh_alloc _ _ _ _ HY Hc)). apply inm_blk in Hb. lia.
    + apply TTr.
    + apply TTr.
    + apply TTw.
    + intros m' H1 K1. split; [|exact K1]. eapply mval_ext; [exact H1|]. intros i j _ _. cbn [tr]. rewrite T1.
      rewrite (rl_conj_add K RL), (rl_conj_mul K RL), (fconj_0 RL), (fconj_1 RL), (sum_conj RL). transitivity (sum (Harith.tcols xt xf) (fun q => fconj (tr (negb yt) Y j q * tr (negb xt) X q i)))%F; [ring|].
      unfold prodf. apply sum_ext. intros q _. rewrite (rl_conj_mul K RL). rewrite !conj_tr by exact L. ring.
  - eapply (wp_lowrk alpha) with (D := Z) (U := tr xt X) (V := tr (negb yt) Y); try assumption; [symmetry; exact E3| | |].
    + intros A m1 F A1 A2 A3 A4 A5 A6. cbn iota in *. eapply copy_new; [exact HX|exact A1|exact A2|lia|exact A4|exact A5|exact A6].
    + intros B m1 F A1 A2 A3 A4 A5 A6. cbn iota in *. eapply (wp_add_h_am L f1 (negb yt) y B m1 Y (fun _ _ => f0)); [eapply hrep_moves; [exact A6|exact HY|apply disj_nowhere]|exact A1|exact A2| | | |].
      * intros c Hc Hb. pose proof (alloc_lt _ _ (inh_alloc _ _ _ _ HY Hc)). apply inm_blk in Hb. lia.
      * rewrite A3, A4, E3, E2, S1, S2. destruct yt; reflexivity.
      * rewrite A3, A4, E3, E2, S1, S2. destruct yt; reflexivity.
      * intros m' H1 K1. split; [|exact K1]. eapply mval_ext; [exact H1|]. intros i j _ _. cbv beta. ring.
    + intros E z' m' HPo HE. eapply HQ; [exact HPo|]. eapply lowerq_ext; [exact HE|]. intros i j _ _. cbv beta. f_equal. f_equal. unfold prodf, lowrank. apply sum_ext. intros q _. rewrite (conj_tr L). reflexivity.
Qed.
(** [y] is dense *)
Lemma wp_lyf alpha (xt yt : bool) x yf z m X Y Z (Q : hmx -> mem K -> Prop) : fconj alpha = alpha -> hrep m x X -> mval m yf Y -> hrep m z Z -> hmut m z -> hstd z -> hpos z -> hdiag z ->
  Harith.tcols yt yf = hcols z -> Harith.trows yt yf = csz (tcc xt x) -> hrows z = csz (trc xt x) ->
  (forall E z' m', hpost m z E z' m' -> lowerq (hrows z) E (fun i j => Z i j + alpha * prodf xt yt (Harith.trows yt yf) X Y i j)%F -> Q z' m') ->
  wp TT TT (lower_yf O svd rank alpha xt yt x yf z) m Q.
Proof.
  intros Hal HX HY HR HU HS HP Hdz E1 E2 E3 HQ. unfold lower_yf.
  assert (T1 : Harith.trows (negb yt) yf = Harith.tcols yt yf) by (destruct yt; reflexivity).
  assert (T2 : Harith.tcols (negb yt) yf = Harith.trows yt yf) by (destruct yt; reflexivity).
  assert (S1 : csz (trc xt x) = if xt then hcols x else hrows x) by (destruct xt; reflexivity).
  assert (S2 : csz (tcc xt x) = if xt then hrows x else hcols x) by (destruct xt; reflexivity).
  destruct (Harith.tcols yt yf <=? Harith.trows yt yf) eqn:Ec.
  - eapply (wp_lowfull alpha) with (D := Z) (P := prodf xt yt (Harith.trows yt yf) X Y); try assumption; [symmetry; exact E3|].
    intros A m1 F A1 A2 A3 A4 A5 A6.
    eapply (wp_addmul_h RL x TT TT f1 xt yt yf false A X (tr yt Y) (fun _ _ => f0)).
    + exact A1.
    + eapply hrep_moves; [exact A6|exact HX|apply disj_nowhere].
    + unfold HaP3.tval. eapply mval_ext; [eapply mval_moves; [exact A6|exact HY|apply disj_nowhere]|]. intros i j _ _. symmetry. apply (tr_tr RL).
    + exact A2.
    + rewrite E2. exact S2.
    + cbn. rewrite A3. exact S1.
    + cbn. congruence.
    + intros c Hc Hb. pose proof (alloc_lt _ _ (inm_alloc _ _ _ _ HY Hc)). apply inm_blk in Hb. lia.
    + intros c Hc Hb. pose proof (alloc_lt _ _ (inh_alloc _ _ _ _ HX Hc)). apply inm_blk in Hb. lia.
    + apply TTr.
    + apply TTr.
    + apply TTw.
    + intros m' H1 K1. split; [|exact K1]. eapply mval_ext; [exact H1|]. intros i j _ _. cbn [tr]. unfold prodf. ring.
  - eapply (wp_lowrk alpha) with (D := Z) (U := tr xt X) (V := tr (negb yt) Y); try assumption; [symmetry; exact E3| | |].
    + intros A m1 F A1 A2 A3 A4 A5 A6. cbn iota in *. eapply copy_new; [exact HY|exact A1|exact A2|lia|lia|exact A5|exact A6].
    + intros B m1 F A1 A2 A3 A4 A5 A6. cbn iota in *. eapply (wp_add_h_am L f1 xt x B m1 X (fun _ _ => f0)); [eapply hrep_moves; [exact A6|exact HX|apply disj_nowhere]|exact A1|exact A2| | | |].
      * intros c Hc Hb. pose proof (alloc_lt _ _ (inh_alloc _ _ _ _ HX Hc)). apply inm_blk in Hb. lia.
      * rewrite A3, A4, E3, E2, S1, S2. destruct xt; reflexivity.
      * rewrite A3, A4, E3, E2, S1, S2. destruct xt; reflexivity.
      * intros m' H1 K1. split; [|exact K1]. eapply mval_ext; [exact H1|]. intros i j _ _. cbv beta. ring.
    + intros E z' m' HPo HE. eapply HQ; [exact HPo|]. eapply lowerq_ext; [exact HE|]. intros i j _ _. cbv beta. f_equal. f_equal. unfold prodf, lowrank. apply sum_ext. intros q _. rewrite (conj_tr L). reflexivity.
Qed.
(** [x] is a low-rank matrix *)
Lemma wp_lxr alpha (xt yt : bool) x xr y z m X Y Z (Q : hmx -> mem K -> Prop) : rkrep m xr X -> hrep m y Y -> hrep m z Z -> hmut m z -> hstd z -> hpos z -> hdiag z ->
  let n := mrows (if xt then rk_A xr else rk_B xr) in
  mrows (if xt then rk_B xr else rk_A xr) = hrows z -> csz (trc xt x) = hrows z -> n = csz (trc yt y) -> hcols z = csz (tcc yt y) ->
  (forall E z' m', hpost m z E z' m' -> lowerq (hrows z) E (fun i j => Z i j + alpha * prodf xt yt n X Y i j)%F -> Q z' m') ->
  wp TT TT (lower_xr O svd rank alpha xt yt x xr y z) m Q.
Proof.
  intros (A & B & HA & HB & CA & CB & HX) HY HR HU HS HP Hdz n E1 E0 E2 E3 HQ. unfold lower_xr. pose proof (hdiag_sq _ Hdz) as Hsq.
  assert (HA' : mval m (if xt then rk_B xr else rk_A xr) (if xt then B else A)) by (destruct xt; assumption).
  assert (HB' : mval m (if xt then rk_A xr else rk_B xr) (if xt then A else B)) by (destruct xt; assumption).
  assert (CA' : mcols (if xt then rk_B xr else rk_A xr) = rk_k xr) by (destruct xt; assumption).
  assert (CB' : mcols (if xt then rk_A xr else rk_B xr) = rk_k xr) by (destruct xt; assumption).
  eapply (wp_lowrk alpha) with (D := Z) (U := if xt then B else A) (V := fun p c => (f1 * sum n (fun q => tr (negb yt) Y p q * (if xt then A else B) q c))%F); try assumption; [symmetry; exact E3| | |].
  - intros A0 m1 F A1 A2 A3 A4 A5 A6. eapply (copy_new false); [exact HA'|exact A1|exact A2|cbn; congruence|cbn; congruence|exact A5|exact A6].
  - intros B0 m1 F A1 A2 A3 A4 A5 A6. cbn iota in *. eapply (wp_newfac L f1 (negb yt) y Y false _ (if xt then A else B)); [exact HY|exact HB'| | |cbn; congruence|exact A1|exact A2|exact A5|exact A6].
    + cbn. fold n. rewrite E2. destruct yt; reflexivity.
    + rewrite A3, E3. destruct yt; reflexivity.
  - intros E z' m' HPo HE. eapply HQ; [exact HPo|]. eapply lowerq_ext; [exact HE|]. intros i j Hi Hj. cbv beta. f_equal. f_equal. unfold prodf.
    transitivity (sum n (fun q => sum (rk_k xr) (fun (l : nat) => (if xt then B else A) i l * fconj ((if xt then A else B) q l) * tr yt Y q j)))%F.
    + apply sum_ext. intros q Hq. rewrite (sum_mul_r RL). f_equal. change (sum (rk_k xr) _) with (lowrank (rk_k xr) (if xt then B else A) (if xt then A else B) i q). rewrite <- (tr_lowrank L).
      unfold n in Hq. destruct xt; cbn [tr]; [f_equal|]; apply HX; lia.
    + rewrite (sum_swap RL). unfold lowrank. apply sum_ext. intros l _. rewrite (rl_conj_mul K RL), (fconj_1 RL), (sum_conj RL).
      rewrite <- !(sum_mul_l RL). apply sum_ext. intros q _. rewrite (rl_conj_mul K RL), (conj_tr L). ring.
Qed.
(** [y] is a low-rank matrix *)
Lemma wp_lyr alpha (xt yt : bool) x y yr z m X Y Z (Q : hmx -> mem K -> Prop) : hrep m x X -> rkrep m yr Y -> hrep m z Z -> hmut m z -> hstd z -> hpos z -> hdiag z ->
  let n := mrows (if yt then rk_B yr else rk_A yr) in
  mrows (if yt then rk_A yr else rk_B yr) = hcols z -> csz (tcc yt y) = hcols z -> n = csz (tcc xt x) -> hrows z = csz (trc xt x) ->
  (forall E z' m', hpost m z E z' m' -> lowerq (hrows z) E (fun i j => Z i j + alpha * prodf xt yt n X Y i j)%F -> Q z' m') ->
  wp TT TT (lower_yr O svd rank alpha xt yt x y yr z) m Q.
Proof.
  intros HX (A & B & HA & HB & CA & CB & HY) HR HU HS HP Hdz n E1 E0 E2 E3 HQ. unfold lower_yr. pose proof (hdiag_sq _ Hdz) as Hsq.
  assert (HA' : mval m (if yt then rk_B yr else rk_A yr) (if yt then B else A)) by (destruct yt; assumption).
  assert (HB' : mval m (if yt then rk_A yr else rk_B yr) (if yt then A else B)) by (destruct yt; assumption).
  assert (CA' : mcols (if yt then rk_B yr else rk_A yr) = rk_k yr) by (destruct yt; assumption).
  assert (CB' : mcols (if yt then rk_A yr else rk_B yr) = rk_k yr) by (destruct yt; assumption).
  eapply (wp_lowrk alpha) with (D := Z) (V := if yt then A else B) (U := fun p c => (f1 * sum n (fun q => tr xt X p q * (if yt then B else A) q c))%F); try assumption; [symmetry; exact E3| | |].
  - intros A0 m1 F A1 A2 A3 A4 A5 A6. eapply (copy_new false); [exact HB'|exact A1|exact A2|cbn; congruence|cbn; congruence|exact A5|exact A6].
  - intros B0 m1 F A1 A2 A3 A4 A5 A6. cbn iota in *. eapply (wp_newfac L f1 xt x X false _ (if yt then B else A)); [exact HX|exact HA'| | |cbn; congruence|exact A1|exact A2|exact A5|exact A6].
    + cbn. fold n. rewrite E2. destruct xt; reflexivity.
    + rewrite A3, E3. destruct xt; reflexivity.
  - intros E z' m' HPo HE. eapply HQ; [exact HPo|]. eapply lowerq_ext; [exact HE|]. intros i j Hi Hj. cbv beta. f_equal. f_equal. unfold prodf.
    transitivity (sum n (fun q => sum (rk_k yr) (fun (l : nat) => tr xt X i q * ((if yt then B else A) q l * fconj ((if yt then A else B) j l)))))%F.
    + apply sum_ext. intros q Hq. rewrite (sum_mul_l RL). f_equal. change (sum (rk_k yr) _) with (lowrank (rk_k yr) (if yt then B else A) (if yt then A else B) q j). rewrite <- (tr_lowrank L).
      unfold n in Hq. destruct yt; cbn [tr]; [f_equal|]; apply HY; lia.
    + rewrite (sum_swap RL). unfold lowrank. apply sum_ext. intros l _. rewrite <- !(sum_mul_l RL), <- (sum_mul_r RL). apply sum_ext. intros q _. ring.
Qed.
End P.
