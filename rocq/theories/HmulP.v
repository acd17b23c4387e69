(** * Products of H-matrices: leaves *)
From Coq Require Import Arith Lia List Bool Permutation Ring.
From Verif Require Import Fld Ord Prog Arr View Loop Line Spec Cluster Block BlockP Avector Amatrix AvectorP AmatrixP AmatrixP2 Rkmatrix RkSpec RkP Factor FactorSpec Chol CholSpec Qr QrSpec
  CbP CbmSpec CbmP CopSpec OrthoP SepP SepP2 Htrunc HtSpec HtP HtP2 HtP3 HtP4 Hmatrix HmSpec HmP HmP4 HlibSpec Harith HaP3 HaddSpec HmvP Hadd MgP MgP2 MgP3 HaddP HaddP2 HaddP3 HaddP4 HaddP5 HaddP6 Hmul.
Import ListNotations.

Section Store.
Context {K : fops} {G : ofops}.
Local Notation hmx := (hmatrix G).
Implicit Types (m : mem K) (z : hmx) (D : nat -> nat -> K).

(** Work on [z] with temporary storage [H] *)
Lemma hpost_wrap m z D0 (H : addr -> Prop) m1 D z' m2 m3 : hrep m z D0 -> hmut m z -> moves m nowhere H m1 -> hpost m1 z D z' m2 -> moves m2 H nowhere m3 -> hpost m z D z' m3.
Proof.
  intros HR HU M1 (R2 & U2 & L2 & M2) M3. assert (Hlt : forall a, hfp z a -> fst a < next m) by (intros a Ha; eapply hfp_lt; eassumption).
  assert (Hd : disj H (hfp z)) by (intros a Ha Hb; pose proof (moves_new _ _ _ _ M1 Ha); pose proof (Hlt a Hb); lia).
  assert (Hd' : disj H (hfp z')) by (eapply moves_disj; [exact M2|intros a; apply (moves_lt _ _ _ _ _ M1)|exact Hd]).
  split; [|split; [|split; [exact L2|]]].
  - eapply hrep_moves; [exact M3|exact R2|]. intros a Ha Hb. apply (Hd' a Hb), inh_hfp, Ha.
  - eapply hmut_moves; [exact M3|exact U2|]. intros a Ha Hb. exact (Hd' a Hb Ha).
  - eapply (moves_trans _ _ (fun a => H a \/ hfp z a)).
    { eapply moves_ext; [| |eapply (moves_frame _ _ _ (hfp z)); [exact M1|exact Hlt]]; intros a; unfold nowhere; tauto. }
    eapply (moves_trans _ _ (fun a => H a \/ hfp z' a)).
    { eapply moves_ext; [| |eapply (moves_frame _ _ _ H); [exact M2|intros a; apply (moves_lt _ _ _ _ _ M1)]]; intros a; tauto. }
    eapply moves_ext; [| |eapply (moves_frame _ _ _ (hfp z')); [exact M3|intros a; apply (moves_lt _ _ _ _ _ M2)]]; intros a; unfold nowhere; tauto.
Qed.
Lemma moves_in m (F : addr -> Prop) W m1 m2 : moves m nowhere F m1 -> keeps W m1 m2 -> (forall a, W a -> F a) -> moves m nowhere F m2.
Proof. intros M1 K2 HW. eapply moves_trans; [exact M1|]. eapply moves_keeps; [exact K2|exact HW|]. intros a. apply (moves_lt _ _ _ _ _ M1). Qed.
End Store.

Section P.
Context {K : fops} {G : ofops} (L : field_laws K) (O : qops K) (H : qlaws O) (HZ : exact_zero O).
Context (orth : Prop) (good : nat -> (nat -> K) -> Prop) (chosen : nat -> (nat -> K) -> nat -> Prop) (dom : nat -> nat -> Prop).
Context (svd : mat -> vec -> mat -> mat -> prog K unit) (rank : vec -> prog K nat) (Hsvd : svd_ok orth good dom svd) (Hrank : rank_ok good chosen rank).
Context (Hdom : forall r c, dom r c) (Hless : forall n s k, chosen n s k -> forall l, k <= l < n -> s l = f0).
Notation RL := (fl_ring K L).
Add Ring KringHmul : (rl_ring K (fl_ring K L)).
Local Notation hmx := (hmatrix G).
Implicit Types (m : mem K) (h s t : hmx) (l : list hmx) (D E U V : nat -> nat -> K) (r src : rkm) (rc cc : cptr G).

Lemma wp_addlow k (left : bool) (fill mul : mat -> prog K unit) z m D U V (Q : hmx -> mem K -> Prop) : hrep m z D -> hmut m z ->
  (forall A m1 (F : addr -> Prop), mwf A -> malloc m1 A -> mrows A = (if left then hrows z else hcols z) -> mcols A = k -> next m <= mblk A -> moves m nowhere F m1 ->
     wp TT TT (fill A) m1 (fun _ m2 => mval m2 A (if left then U else V) /\ keeps (inm A) m1 m2)) ->
  (forall B m1 (F : addr -> Prop), mwf B -> mval m1 B (fun _ _ => f0) -> mrows B = (if left then hcols z else hrows z) -> mcols B = k -> next m <= mblk B -> moves m nowhere F m1 -> mblk B < next m1 ->
     wp TT TT (mul B) m1 (fun _ m2 => mval m2 B (if left then V else U) /\ keeps (inm B) m1 m2)) ->
  (forall z' m', hpost m z (fun i j => D i j + lowrank k U V i j)%F z' m' -> Q z' m') ->
  wp TT TT (addlow O svd rank k left fill mul z) m Q.
Proof.
  intros HR HU HF HM HQ. unfold addlow, init_rkmatrix. apply wp_bind. apply wp_bind.
  eapply s_init; [apply st_empty|]. intros X m1 RX CX S1. apply wp_bind. eapply s_init; [exact S1|]. intros Y m2 RY CY S2. cbn [wp rk_A rk_B].
  assert (NX : next m <= mblk X) by (destruct (st_old _ _ _ _ _ S2 _ (or_intror (or_introl eq_refl))) as [[]|E]; exact E).
  assert (NY : next m <= mblk Y) by (destruct (st_old _ _ _ _ _ S2 _ (or_introl eq_refl)) as [[]|E]; exact E).
  pose proof (st_own _ _ _ _ _ 1 _ _ _ S2 eq_refl) as (A1 & A2 & A3 & A4). pose proof (st_own _ _ _ _ _ 0 _ _ _ S2 eq_refl) as (B3 & B4 & B5 & B6).
  pose proof (st_neq _ _ _ _ _ 0 1 _ _ S2 eq_refl eq_refl ltac:(lia)) as HN. cbn in HN.
  assert (M2 : moves m nowhere (rkblk (Rk X Y k)) m2).
  { eapply moves_ext; [| |exact (st_moves m [] _ _ _ (fun b (X : In b []) => match X with end) ltac:(cbn; intros b [[]|E]; exact E) S2)].
    - intros a. cbn. unfold nowhere. tauto.
    - intros a. cbn. unfold rkblk. cbn. intuition congruence. }
  cbn in A1, A2, A3, A4, B3, B4, B5, B6. clear S1 S2.
  set (P := if left then X else Y). set (P' := if left then Y else X).
  assert (EP : mwf P /\ malloc m2 P /\ mrows P = (if left then hrows z else hcols z) /\ mcols P = k /\ next m <= mblk P /\ (forall a, inm P a -> rkblk (Rk X Y k) a)).
  { unfold P. destruct left; repeat (split; [assumption|]); intros a Ha; apply inm_blk in Ha; [left|right]; exact Ha. }
  assert (EP' : mwf P' /\ malloc m2 P' /\ mrows P' = (if left then hcols z else hrows z) /\ mcols P' = k /\ next m <= mblk P' /\ mblk P' < next m2 /\ (forall a, inm P' a -> rkblk (Rk X Y k) a)).
  { unfold P'. destruct left; repeat (split; [assumption|]); intros a Ha; apply inm_blk in Ha; [right|left]; exact Ha. }
  destruct EP as (W1 & W2 & W3 & W4 & W5 & W6). destruct EP' as (V1 & V2 & V3 & V4 & V5 & V5' & V6).
  assert (HPP : mblk P <> mblk P') by (unfold P, P'; destruct left; congruence).
  apply wp_bind. eapply wp_conseq; [apply (HF P m2 (rkblk (Rk X Y k))); assumption|]. cbv beta. intros _ m3 [G1 K3].
  pose proof (moves_in _ _ _ _ _ M2 K3 W6) as M3.
  apply wp_bind. apply wp_clear_amatrix; [exact V1|eapply malloc_keeps; [exact V2|exact K3|apply blk_disj; congruence]|apply TTw|]. intros m4 G2 K4.
  pose proof (moves_in _ _ _ _ _ M3 K4 V6) as M4.
  apply wp_bind. eapply wp_conseq; [apply (HM P' m4 (rkblk (Rk X Y k))); try assumption; pose proof (proj1 K3); pose proof (proj1 K4); lia|]. cbv beta. intros _ m5 [G3 K5].
  pose proof (moves_in _ _ _ _ _ M4 K5 V6) as M5.
  assert (G1' : mval m5 P (if left then U else V)) by (eapply mval_keeps; [eapply mval_keeps; [exact G1|exact K4|apply blk_disj; congruence]|exact K5|apply blk_disj; congruence]).
  assert (GX : mval m5 X U) by (unfold P, P' in *; destruct left; assumption).
  assert (GY : mval m5 Y V) by (unfold P, P' in *; destruct left; assumption).
  assert (HN5 : next m2 <= next m5) by (pose proof (proj1 K3); pose proof (proj1 K4); pose proof (proj1 K5); lia).
  assert (HH : held m5 (Rk X Y k) (hrows z) (hcols z) (lowrank k U V)).
  { split; [|split; [|cbn; auto]].
    - unfold rkown; cbn [rk_A rk_B rk_k]. repeat split; auto; try lia; eapply mval_alloc; eassumption.
    - exists U, V. cbn [rk_A rk_B rk_k]. repeat split; auto. }
  pose proof HH as (HH1 & HH2 & HH3 & HH4). cbn [rk_A rk_B] in HH3, HH4.
  assert (Hd : disj (rkblk (Rk X Y k)) (hfp z)).
  { intros a Ha Hb. pose proof (moves_new _ _ _ _ M5 Ha). pose proof (hfp_lt _ _ _ _ HR HU Hb). lia. }
  apply wp_bind. eapply (wp_add_rk_h L O H HZ orth good chosen dom svd rank Hsvd Hrank Hdom Hless f1 z (Rk X Y k) m5 D (lowrank k U V));
    [eapply hrep_moves; [exact M5|exact HR|apply disj_nowhere]|eapply hmut_moves; [exact M5|exact HU|apply disj_nowhere]|exact HH2|exact HH3|exact HH4| |].
  { intros a Ha. apply Hd. destruct Ha as [Ha|Ha]; apply inm_blk in Ha; [left|right]; exact Ha. }
  intros z' m6 P6. apply wp_bind. eapply wp_drop_h; [eapply held_moves; [apply P6|exact HH|exact Hd]|]. intros m7 M7. cbn [wp]. apply HQ.
  eapply hpost_ext; [eapply hpost_wrap; [exact HR|exact HU|exact M5|exact P6|exact M7]|]. intros i j _ _. cbv beta. ring.
Qed.
End P.
