(** * Products of H-matrices: leaves *)
From Coq Require Import Arith Lia List Bool Permutation Ring.
From Verif Require Import Fld Ord Prog Arr View Loop Line Spec Cluster Block BlockP Avector Amatrix AvectorP AmatrixP AmatrixP2 Rkmatrix RkSpec RkP Factor FactorSpec Chol CholSpec Qr QrSpec
  CbP CbmSpec CbmP CopSpec OrthoP SepP SepP2 Htrunc HtSpec HtP HtP2 HtP3 HtP4 Hmatrix HmSpec HmP HmP4 HlibSpec Harith HaP3 HaddSpec HmvP Hadd MgP MgP2 MgP3 HaddP HaddP2 HaddP3 HaddP4 HaddP5 HaddP6 Hmul HmulP HmulP2.
Import ListNotations.

Section P.
Context {K : fops} {G : ofops} (L : field_laws K) (O : qops K) (H : qlaws O) (HZ : exact_zero O).
Context (orth : Prop) (good : nat -> (nat -> K) -> Prop) (chosen : nat -> (nat -> K) -> nat -> Prop) (dom : nat -> nat -> Prop).
Context (svd : mat -> vec -> mat -> mat -> prog K unit) (rank : vec -> prog K nat) (Hsvd : svd_ok orth good dom svd) (Hrank : rank_ok good chosen rank).
Context (Hdom : forall r c, dom r c) (Hless : forall n s k, chosen n s k -> forall l, k <= l < n -> s l = f0).
Notation RL := (fl_ring K L).
Add Ring KringHmul3 : (rl_ring K (fl_ring K L)).
Local Notation hmx := (hmatrix G).
Implicit Types (m : mem K) (h s t x y z : hmx) (l : list hmx) (D E U V X Y Z : nat -> nat -> K) (r src : rkm) (rc cc : cptr G).

Definition prodf (xt yt : bool) (n : nat) X Y i j : K := sum n (fun q => tr xt X i q * tr yt Y q j)%F.

Lemma copy_new (t : bool) A f m A' (F : addr -> Prop) m1 : mval m A f -> mwf A' -> malloc m1 A' -> mrows A' = Harith.trows t A -> mcols A' = Harith.tcols t A -> next m <= mblk A' -> moves m nowhere F m1 ->
  wp TT TT (copy_amatrix t A A') m1 (fun _ m2 => mval m2 A' (tr t f) /\ keeps (inm A') m1 m2).
Proof.
  intros HA HW HM E1 E2 HN M1. eapply (wp_copy_amatrix TT TT t A A' f); [exact HW|eapply mval_moves; [exact M1|exact HA|apply disj_nowhere]|exact HM| |apply TTr|apply TTw|symmetry; exact E1|symmetry; exact E2|auto].
  intros a Ha Hb. pose proof (alloc_lt _ _ (inm_alloc _ _ _ _ HA Ha)). apply inm_blk in Hb. lia.
Qed.
Lemma id_new m A' (F : addr -> Prop) m1 : mwf A' -> malloc m1 A' -> moves m nowhere F m1 -> wp TT TT (identity_amatrix A') m1 (fun _ m2 => mval m2 A' idf /\ keeps (inm A') m1 m2).
Proof. intros HW HM M1. eapply wp_identity_amatrix; [exact HW|exact HM|apply TTw|auto]. Qed.

(** [x] is dense *)
Lemma wp_xf alpha (xt yt : bool) xf y z m X Y Z (Q : hmx -> mem K -> Prop) : mval m xf X -> hrep m y Y -> hrep m z Z -> hmut m z ->
  Harith.trows xt xf = hrows z -> Harith.tcols xt xf = (if yt then hcols y else hrows y) -> hcols z = (if yt then hrows y else hcols y) ->
  disj (inm xf) (hfp z) -> disj (inh y) (hfp z) ->
  (forall z' m', hpost m z (fun i j => Z i j + alpha * prodf xt yt (Harith.tcols xt xf) X Y i j)%F z' m' -> Q z' m') ->
  wp TT TT (addmul_xf O svd rank alpha xt yt xf y z) m Q.
Proof.
  intros HX HY HR HU E1 E2 E3 D1 D2 HQ. unfold addmul_xf.
  assert (T1 : Harith.trows (negb xt) xf = Harith.tcols xt xf) by (destruct xt; reflexivity).
  assert (T2 : Harith.tcols (negb xt) xf = Harith.trows xt xf) by (destruct xt; reflexivity).
  destruct (hm_f z) as [zf|] eqn:Ez.
  - inversion HR as [rc cc r ds E0 Z1 Z2 Z3|rc cc f ds E0 Z1 Z2 Z3|rc cc l rs cs ds hs ws E0 P1 P2 P3 P4 P5 P6 P7]; subst z; subst E0; cbn [hm_f] in Ez; try discriminate. injection Ez as ->.
    pose proof HU as HUx. inversion_clear HUx as [|? ? ? ? U1 U2 UW|]. unfold hrows, hcols in E1, E3. cbn [hm_rc hm_cc] in E1, E3.
    apply wp_bind. eapply (wp_addmul_h RL y TT TT (fconj alpha) (negb yt) (negb xt) xf true zf Y (tr (negb xt) X) (tr true Z)).
    + exact UW.
    + exact HY.
    + unfold HaP3.tval. eapply mval_ext; [exact HX|]. intros i j _ _. symmetry. apply (tr_tr RL).
    + unfold HaP3.tval. eapply mval_ext; [exact Z3|]. intros i j _ _. symmetry. apply (tr_tr RL).
    + rewrite T1, E2. destruct yt; reflexivity.
    + cbn. rewrite Z2, E3. destruct yt; reflexivity.
    + rewrite T2, E1. cbn. congruence.
    + intros a Ha Hb. apply (D1 a Ha), hfp_full, Hb.
    + intros a Ha Hb. apply (D2 a Ha), hfp_full, Hb.
    + apply TTr.
    + apply TTr.
    + apply TTw.
    + intros m' H1 K1. cbn [wp]. apply HQ. eapply hpost_full; [exact HR|exact HU| |exact K1]. eapply mval_ext; [exact H1|]. intros i j _ _. cbn [tr]. rewrite T1.
      rewrite (rl_conj_add K RL), (rl_conj_mul K RL), !(rl_conj_conj K RL), (sum_conj RL). f_equal. f_equal. unfold prodf. apply sum_ext. intros q _.
      rewrite (rl_conj_mul K RL). rewrite !conj_tr by exact L. ring.
  - destruct (Harith.tcols xt xf <? Harith.trows xt xf) eqn:Ec.
    + eapply (wp_addlow L O H HZ orth good chosen dom svd rank Hsvd Hrank Hdom Hless) with (D := Z) (U := tr xt X) (V := fun p c => (fconj alpha * tr (negb yt) Y p c)%F); [exact HR|exact HU| | |].
      * intros A m1 F A1 A2 A3 A4 A5 A6. cbn iota in *. eapply copy_new; [exact HX|exact A1|exact A2|lia|exact A4|exact A5|exact A6].
      * intros B m1 F A1 A2 A3 A4 A5 A6 A7. cbn iota in *. eapply (wp_newid L); [exact HY| | |symmetry; exact A4|exact A1|exact A2|exact A5|exact A7|exact A6].
        -- rewrite E2. destruct yt; reflexivity.
        -- rewrite A3, E3. destruct yt; reflexivity.
      * intros z' m' HP. apply HQ. eapply hpost_ext; [exact HP|]. intros i j _ _. cbv beta. unfold prodf, lowrank. rewrite <- (sum_mul_l RL). f_equal. apply sum_ext. intros q _.
        rewrite (rl_conj_mul K RL), (rl_conj_conj K RL). rewrite (conj_tr L). ring.
    + eapply (wp_addlow L O H HZ orth good chosen dom svd rank Hsvd Hrank Hdom Hless) with (D := Z) (U := idf) (V := fun p c => (fconj alpha * sum (Harith.trows (negb xt) xf) (fun q => tr (negb yt) Y p q * tr (negb xt) X q c))%F); [exact HR|exact HU| | |].
      * intros A m1 F A1 A2 A3 A4 A5 A6. eapply id_new; eassumption.
      * intros B m1 F A1 A2 A3 A4 A5 A6 A7. cbn iota in *. eapply (wp_newfac L); [exact HY|exact HX| | |rewrite A4; exact T2|exact A1|exact A2|exact A5|exact A6].
        -- rewrite T1, E2. destruct yt; reflexivity.
        -- rewrite A3, E3. destruct yt; reflexivity.
      * intros z' m' HP. apply HQ. eapply hpost_ext; [exact HP|]. intros i j Hi _. cbv beta. unfold prodf, lowrank. rewrite T1. f_equal. symmetry.
        erewrite sum_ext; [rewrite (sum_idf L (Harith.trows xt xf) (fun (l : nat) => fconj (fconj alpha * sum (Harith.tcols xt xf) (fun q => tr (negb yt) Y j q * tr (negb xt) X q l))%F) i ltac:(lia))|].
        -- rewrite (rl_conj_mul K RL), (rl_conj_conj K RL), (sum_conj RL). f_equal. apply sum_ext. intros q _. rewrite (rl_conj_mul K RL), !(conj_tr L). ring.
        -- intros l _. cbv beta. unfold idf. rewrite (Nat.eqb_sym l i). ring.
Qed.

(** [x] is a low-rank matrix *)
Lemma tr_lowrank (t : bool) k (A B : nat -> nat -> K) i j : tr t (lowrank k A B) i j = lowrank k (if t then B else A) (if t then A else B) i j.
Proof.
  destruct t; cbn [tr]; [|reflexivity]. unfold lowrank. rewrite (sum_conj RL). apply sum_ext. intros l _. rewrite (rl_conj_mul K RL), (rl_conj_conj K RL). ring.
Qed.
Lemma wp_xr alpha (xt yt : bool) xr y z m X Y Z (Q : hmx -> mem K -> Prop) : rkrep m xr X -> hrep m y Y -> hrep m z Z -> hmut m z ->
  let n := mrows (if xt then rk_A xr else rk_B xr) in
  mrows (if xt then rk_B xr else rk_A xr) = hrows z -> n = (if yt then hcols y else hrows y) -> hcols z = (if yt then hrows y else hcols y) ->
  (forall z' m', hpost m z (fun i j => Z i j + alpha * prodf xt yt n X Y i j)%F z' m' -> Q z' m') ->
  wp TT TT (addmul_xr O svd rank alpha xt yt xr y z) m Q.
Proof.
  intros (A & B & HA & HB & CA & CB & HX) HY HR HU n E1 E2 E3 HQ. unfold addmul_xr.
  assert (HA' : mval m (if xt then rk_B xr else rk_A xr) (if xt then B else A)) by (destruct xt; assumption).
  assert (HB' : mval m (if xt then rk_A xr else rk_B xr) (if xt then A else B)) by (destruct xt; assumption).
  assert (CA' : mcols (if xt then rk_B xr else rk_A xr) = rk_k xr) by (destruct xt; assumption).
  assert (CB' : mcols (if xt then rk_A xr else rk_B xr) = rk_k xr) by (destruct xt; assumption).
  eapply (wp_addlow L O H HZ orth good chosen dom svd rank Hsvd Hrank Hdom Hless) with (D := Z) (U := if xt then B else A) (V := fun p c => (fconj alpha * sum n (fun q => tr (negb yt) Y p q * (if xt then A else B) q c))%F); [exact HR|exact HU| | |].
  - intros A0 m1 F A1 A2 A3 A4 A5 A6. eapply (copy_new false); [exact HA'|exact A1|exact A2|cbn; congruence|cbn; congruence|exact A5|exact A6].
  - intros B0 m1 F A1 A2 A3 A4 A5 A6 A7. cbn iota in *. eapply (wp_newfac L (fconj alpha) (negb yt) y Y false _ (if xt then A else B)); [exact HY|exact HB'| | |cbn; congruence|exact A1|exact A2|exact A5|exact A6].
    + cbn. fold n. rewrite E2. destruct yt; reflexivity.
    + rewrite A3, E3. destruct yt; reflexivity.
  - intros z' m' HP. apply HQ. eapply hpost_ext; [exact HP|]. intros i j Hi Hj. cbv beta. f_equal. unfold prodf.
    transitivity (alpha * sum n (fun q => sum (rk_k xr) (fun (l : nat) => (if xt then B else A) i l * fconj ((if xt then A else B) q l) * tr yt Y q j)))%F.
    + f_equal. apply sum_ext. intros q Hq. rewrite (sum_mul_r RL). f_equal. change (sum (rk_k xr) _) with (lowrank (rk_k xr) (if xt then B else A) (if xt then A else B) i q). rewrite <- tr_lowrank.
      unfold n in Hq. destruct xt; cbn [tr]; [f_equal|]; apply HX; lia.
    + rewrite (sum_swap RL), <- (sum_mul_l RL). unfold lowrank. apply sum_ext. intros l _. rewrite (rl_conj_mul K RL), (rl_conj_conj K RL), (sum_conj RL). 
      rewrite <- !(sum_mul_l RL). apply sum_ext. intros q _. rewrite (rl_conj_mul K RL), (conj_tr L). ring.
Qed.

(** [y] is dense *)
Lemma wp_yf alpha (xt yt : bool) x yf z m X Y Z (Q : hmx -> mem K -> Prop) : hrep m x X -> mval m yf Y -> hrep m z Z -> hmut m z ->
  Harith.tcols yt yf = hcols z -> Harith.trows yt yf = (if xt then hrows x else hcols x) -> hrows z = (if xt then hcols x else hrows x) ->
  disj (inm yf) (hfp z) -> disj (inh x) (hfp z) ->
  (forall z' m', hpost m z (fun i j => Z i j + alpha * prodf xt yt (Harith.trows yt yf) X Y i j)%F z' m' -> Q z' m') ->
  wp TT TT (addmul_yf O svd rank alpha xt yt x yf z) m Q.
Proof.
  intros HX HY HR HU E1 E2 E3 D1 D2 HQ. unfold addmul_yf. destruct (hm_f z) as [zf|] eqn:Ez.
  - inversion HR as [rc cc r ds E0 Z1 Z2 Z3|rc cc f ds E0 Z1 Z2 Z3|rc cc l rs cs ds hs ws E0 P1 P2 P3 P4 P5 P6 P7]; subst z; subst E0; cbn [hm_f] in Ez; try discriminate. injection Ez as ->.
    pose proof HU as HUx. inversion_clear HUx as [|? ? ? ? U1 U2 UW|]. unfold hrows, hcols in E1, E3. cbn [hm_rc hm_cc] in E1, E3.
    apply wp_bind. eapply (wp_addmul_h RL x TT TT alpha xt yt yf false zf X (tr yt Y) Z).
    + exact UW.
    + exact HX.
    + unfold HaP3.tval. eapply mval_ext; [exact HY|]. intros i j _ _. symmetry. apply (tr_tr RL).
    + exact Z3.
    + exact E2.
    + cbn. rewrite Z1. exact E3.
    + rewrite E1. cbn. congruence.
    + intros a Ha Hb. apply (D1 a Ha), hfp_full, Hb.
    + intros a Ha Hb. apply (D2 a Ha), hfp_full, Hb.
    + apply TTr.
    + apply TTr.
    + apply TTw.
    + intros m' H1 K1. cbn [wp]. apply HQ. eapply hpost_full; [exact HR|exact HU| |exact K1]. exact H1.
  - assert (T1 : Harith.trows (negb yt) yf = Harith.tcols yt yf) by (destruct yt; reflexivity).
    assert (T2 : Harith.tcols (negb yt) yf = Harith.trows yt yf) by (destruct yt; reflexivity).
    destruct (Harith.trows yt yf <? Harith.tcols yt yf) eqn:Ec.
    + eapply (wp_addlow L O H HZ orth good chosen dom svd rank Hsvd Hrank Hdom Hless) with (D := Z) (V := tr (negb yt) Y) (U := fun p c => (alpha * tr xt X p c)%F); [exact HR|exact HU| | |].
      * intros A m1 F A1 A2 A3 A4 A5 A6. cbn iota in *. eapply copy_new; [exact HY|exact A1|exact A2|lia|lia|exact A5|exact A6].
      * intros B m1 F A1 A2 A3 A4 A5 A6 A7. cbn iota in *. eapply (wp_newid L); [exact HX|exact E2|rewrite A3; exact E3|symmetry; exact A4|exact A1|exact A2|exact A5|exact A7|exact A6].
      * intros z' m' HP. apply HQ. eapply hpost_ext; [exact HP|]. intros i j _ _. cbv beta. unfold prodf, lowrank. rewrite <- (sum_mul_l RL). f_equal. apply sum_ext. intros q _. rewrite (conj_tr L). ring.
    + eapply (wp_addlow L O H HZ orth good chosen dom svd rank Hsvd Hrank Hdom Hless) with (D := Z) (V := idf) (U := fun p c => (alpha * sum (Harith.trows yt yf) (fun q => tr xt X p q * tr yt Y q c))%F); [exact HR|exact HU| | |].
      * intros A m1 F A1 A2 A3 A4 A5 A6. eapply id_new; eassumption.
      * intros B m1 F A1 A2 A3 A4 A5 A6 A7. cbn iota in *. eapply (wp_newfac L); [exact HX|exact HY|exact E2|rewrite A3; exact E3|symmetry; exact A4|exact A1|exact A2|exact A5|exact A6].
      * intros z' m' HP. apply HQ. eapply hpost_ext; [exact HP|]. intros i j _ Hj. cbv beta. unfold prodf, lowrank. f_equal. symmetry.
        erewrite sum_ext; [rewrite (sum_idf L (Harith.tcols yt yf) (fun (l : nat) => (alpha * sum (Harith.trows yt yf) (fun q => tr xt X i q * tr yt Y q l))%F) j ltac:(lia)); reflexivity|].
        intros l _. cbv beta. rewrite (conj_idf L). reflexivity.
Qed.

(** [y] is a low-rank matrix *)
Lemma wp_yr alpha (xt yt : bool) x yr z m X Y Z (Q : hmx -> mem K -> Prop) : hrep m x X -> rkrep m yr Y -> hrep m z Z -> hmut m z ->
  let n := mrows (if yt then rk_B yr else rk_A yr) in
  mrows (if yt then rk_A yr else rk_B yr) = hcols z -> n = (if xt then hrows x else hcols x) -> hrows z = (if xt then hcols x else hrows x) ->
  (forall z' m', hpost m z (fun i j => Z i j + alpha * prodf xt yt n X Y i j)%F z' m' -> Q z' m') ->
  wp TT TT (addmul_yr O svd rank alpha xt yt x yr z) m Q.
Proof.
  intros HX (A & B & HA & HB & CA & CB & HY) HR HU n E1 E2 E3 HQ. unfold addmul_yr.
  assert (HA' : mval m (if yt then rk_B yr else rk_A yr) (if yt then B else A)) by (destruct yt; assumption).
  assert (HB' : mval m (if yt then rk_A yr else rk_B yr) (if yt then A else B)) by (destruct yt; assumption).
  assert (CA' : mcols (if yt then rk_B yr else rk_A yr) = rk_k yr) by (destruct yt; assumption).
  assert (CB' : mcols (if yt then rk_A yr else rk_B yr) = rk_k yr) by (destruct yt; assumption).
  eapply (wp_addlow L O H HZ orth good chosen dom svd rank Hsvd Hrank Hdom Hless) with (D := Z) (V := if yt then A else B) (U := fun p c => (alpha * sum n (fun q => tr xt X p q * (if yt then B else A) q c))%F); [exact HR|exact HU| | |].
  - intros A0 m1 F A1 A2 A3 A4 A5 A6. eapply (copy_new false); [exact HB'|exact A1|exact A2|cbn; congruence|cbn; congruence|exact A5|exact A6].
  - intros B0 m1 F A1 A2 A3 A4 A5 A6 A7. cbn iota in *. eapply (wp_newfac L alpha xt x X false _ (if yt then B else A)); [exact HX|exact HA'|exact E2|rewrite A3; exact E3|cbn; congruence|exact A1|exact A2|exact A5|exact A6].
  - intros z' m' HP. apply HQ. eapply hpost_ext; [exact HP|]. intros i j Hi Hj. cbv beta. f_equal. unfold prodf.
    transitivity (alpha * sum n (fun q => sum (rk_k yr) (fun (l : nat) => tr xt X i q * ((if yt then B else A) q l * fconj ((if yt then A else B) j l)))))%F.
    + f_equal. apply sum_ext. intros q Hq. rewrite (sum_mul_l RL). f_equal. change (sum (rk_k yr) _) with (lowrank (rk_k yr) (if yt then B else A) (if yt then A else B) q j). rewrite <- tr_lowrank.
      unfold n in Hq. destruct yt; cbn [tr]; [f_equal|]; apply HY; lia.
    + rewrite (sum_swap RL), <- (sum_mul_l RL). unfold lowrank. apply sum_ext. intros l _. rewrite <- !(sum_mul_l RL), <- (sum_mul_r RL). apply sum_ext. intros q _. ring.
Qed.
End P.
