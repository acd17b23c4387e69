(** * Admissibility conditions: proofs *)
From Coq Require Import Ring Arith Lia List Bool.
From Verif Require Import Fld Ord Prog Arr Cluster ClusterSpec ClusterP4 Admis AdmisSpec.
Import ListNotations.

Section Adm.
  Context {K : ofops} (L : ofield_laws K) (sq : K -> K) (Hsq : sqrt_laws sq).
  Add Ring KringAdm : (rl_ring K (fl_ring K (ol_field K L))).
  Let O := ofield_order L.

  Lemma fle_mul_l (a x y : K) : fle f0 a -> fle x y -> fle (a * x)%F (a * y)%F.
  Proof.
    intros Ha H. apply (fle_sub L). replace (a * y - a * x)%F with (a * (y - x))%F by ring.
    apply (fle_mul_nn L); [exact Ha|]. apply (proj1 (fle_sub L _ _)). exact H.
  Qed.

  Lemma fsq_le_inv (x y : K) : fle f0 y -> fle (x * x)%F (y * y)%F -> fle x y.
  Proof.
    intros Hy H. unfold fle. destruct (flt y x) eqn:E; [|reflexivity].
    pose proof (fsq_lt L _ _ Hy E) as C. unfold fle in H. congruence.
  Qed.

  Lemma sq_scale eta a b : fle f0 eta -> fle f0 a -> fle f0 b ->
    (fle a (eta * eta * b)%F <-> fle (sq a) (eta * sq b)%F).
  Proof.
    intros He Ha Hb. destruct (Hsq a Ha) as [A1 A2], (Hsq b Hb) as [B1 B2].
    assert (E : (eta * eta * b = (eta * sq b) * (eta * sq b))%F).
    { transitivity (eta * eta * (sq b * sq b))%F; [rewrite B2; reflexivity|ring]. }
    rewrite E. split; intros H.
    - apply fsq_le_inv; [apply (fle_mul_nn L); assumption|]. rewrite A2. exact H.
    - rewrite <- A2. apply (fsq_le L); assumption.
  Qed.

  (** Sets whose diameter and distance are attained. *)
  Lemma sep_iff dist eta (P Q R : (nat -> K) -> Prop) D m : fle f0 eta ->
    (forall x x', R x -> R x' -> fle (dist x x') D) -> (exists x x', R x /\ R x' /\ D = dist x x') ->
    (forall p q, P p -> Q q -> fle m (dist p q)) -> (exists p q, P p /\ Q q /\ m = dist p q) ->
    (fle D (eta * m)%F <-> separated dist eta P Q R).
  Proof.
    intros He HD (x & x' & Rx & Rx' & ->) Hm (p & q & Pp & Qq & ->). split.
    - intros H a b y y' Pa Qb Ry Ry'. eapply (ole_trans O); [apply HD; assumption|].
      eapply (ole_trans O); [exact H|]. apply fle_mul_l; [exact He|]. apply Hm; assumption.
    - intros H. apply H; assumption.
  Qed.

  Lemma fleb_true (x y : K) : fleb x y = true <-> fle x y.
  Proof. unfold fleb, fle. apply negb_true_iff. Qed.

  Lemma max3_gap (a1 b1 a2 b2 : K) : fle a1 b1 -> fle a2 b2 ->
    max3 f0 (a1 - b2)%F (a2 - b1)%F =
    if flt b1 a2 then (a2 - b1)%F else if flt b2 a1 then (a1 - b2)%F else f0.
  Proof.
    intros H1 H2. unfold max3.
    assert (E1 : flt f0 (a1 - b2)%F = flt b2 a1).
    { destruct (flt b2 a1) eqn:E; [apply (proj1 (flt_sub L _ _)); exact E|].
      destruct (flt f0 (a1 - b2)%F) eqn:E'; [|reflexivity]. apply (proj2 (flt_sub L _ _)) in E'. congruence. }
    assert (E2 : flt f0 (a2 - b1)%F = flt b1 a2).
    { destruct (flt b1 a2) eqn:E; [apply (proj1 (flt_sub L _ _)); exact E|].
      destruct (flt f0 (a2 - b1)%F) eqn:E'; [|reflexivity]. apply (proj2 (flt_sub L _ _)) in E'. congruence. }
    rewrite E1, E2.
    destruct (flt b2 a1) eqn:F1, (flt b1 a2) eqn:F2; try reflexivity.
    - (* both gaps cannot be positive *)
      exfalso. pose proof (ol_trans K L _ _ _ F2 (ole_lt_trans O _ _ _ H2 F1)) as C.
      unfold fle in H1. congruence.
    - destruct (flt (a1 - b2)%F (a2 - b1)%F) eqn:F3; [|reflexivity]. exfalso.
      assert (C : flt f0 (a2 - b1)%F = true) by (eapply (ol_trans K L); [exact E1|exact F3]). congruence.
  Qed.

  Section Two.
  Variables (d : nat) (t s : cluster K) (T1 T2 S1 S2 : nat -> K).
  Hypothesis Bt : box_of d t T1 T2.
  Hypothesis Bs : box_of d s S1 S2.

  Notation P := (in_box d T1 T2).
  Notation Q := (in_box d S1 S2).
  Notation nt := (near_t T1 T2 S1 S2).
  Notation ns := (near_s T1 T2 S1 S2).

  Lemma box_diam_2 (B1 B2 : nat -> K) : (forall j, j < d -> fle (B1 j) (B2 j)) ->
    (forall x x', in_box d B1 B2 x -> in_box d B1 B2 x' -> fle (edist sq d x x') (sq (dist2 d B2 B1))) /\
    (exists x x', in_box d B1 B2 x /\ in_box d B1 B2 x' /\ sq (dist2 d B2 B1) = edist sq d x x').
  Proof.
    intros H. split.
    - intros x y Hx Hy. apply (sq_mono L); [exact Hsq|apply (dist2_nn L)|]. apply (dist2_mono L).
      intros j Hj. apply (diam_bound L d B1 B2 H); assumption.
    - exists B2, B1. split; [|split; [|reflexivity]]; intros j Hj; split; auto; apply (ole_refl O).
  Qed.
  Lemma box_diam_max (B1 B2 : nat -> K) : (forall j, j < d -> fle (B1 j) (B2 j)) ->
    (forall x x', in_box d B1 B2 x -> in_box d B1 B2 x' -> fle (distmax d x x') (distmax d B2 B1)) /\
    (exists x x', in_box d B1 B2 x /\ in_box d B1 B2 x' /\ distmax d B2 B1 = distmax d x x').
  Proof.
    intros H. split.
    - intros x y Hx Hy. apply (distmax_mono L). intros j Hj. apply (diam_bound L d B1 B2 H); assumption.
    - exists B2, B1. split; [|split; [|reflexivity]]; intros j Hj; split; auto; apply (ole_refl O).
  Qed.
  Lemma box_dist_2 :
    (forall p q, P p -> Q q -> fle (sq (dist2 d nt ns)) (edist sq d p q)) /\
    (exists p q, P p /\ Q q /\ sq (dist2 d nt ns) = edist sq d p q).
  Proof.
    destruct Bt as (D & V1 & V2 & H), Bs as (D' & V1' & V2' & H'). split.
    - intros x y Hx Hy. apply (sq_mono L); [exact Hsq|apply (dist2_nn L)|]. apply (dist2_mono L).
      intros j Hj. apply (near_bound L d T1 T2 S1 S2); assumption.
    - destruct (near_in L d T1 T2 S1 S2 H H'). do 2 eexists. split; [|split; [|reflexivity]]; assumption.
  Qed.
  Lemma box_dist_max :
    (forall p q, P p -> Q q -> fle (distmax d nt ns) (distmax d p q)) /\
    (exists p q, P p /\ Q q /\ distmax d nt ns = distmax d p q).
  Proof.
    destruct Bt as (D & V1 & V2 & H), Bs as (D' & V1' & V2' & H'). split.
    - intros x y Hx Hy. apply (distmax_mono L). intros j Hj. apply (near_bound L d T1 T2 S1 S2); assumption.
    - destruct (near_in L d T1 T2 S1 S2 H H'). do 2 eexists. split; [|split; [|reflexivity]]; assumption.
  Qed.

  Variable eta : K.
  Hypothesis He : fle f0 eta.

  Lemma sep2_t : fle (sq (dist2 d T2 T1)) (eta * sq (dist2 d nt ns))%F <-> separated (edist sq d) eta P Q P.
  Proof. destruct (box_diam_2 T1 T2 (proj2 (proj2 (proj2 Bt)))), box_dist_2. apply sep_iff; assumption. Qed.
  Lemma sep2_s : fle (sq (dist2 d S2 S1)) (eta * sq (dist2 d nt ns))%F <-> separated (edist sq d) eta P Q Q.
  Proof. destruct (box_diam_2 S1 S2 (proj2 (proj2 (proj2 Bs)))), box_dist_2. apply sep_iff; assumption. Qed.
  Lemma sepm_t : fle (distmax d T2 T1) (eta * distmax d nt ns)%F <-> separated (distmax d) eta P Q P.
  Proof. destruct (box_diam_max T1 T2 (proj2 (proj2 (proj2 Bt)))), box_dist_max. apply sep_iff; assumption. Qed.
  Lemma sepm_s : fle (distmax d S2 S1) (eta * distmax d nt ns)%F <-> separated (distmax d) eta P Q Q.
  Proof. destruct (box_diam_max S1 S2 (proj2 (proj2 (proj2 Bs)))), box_dist_max. apply sep_iff; assumption. Qed.

  Lemma run_adm_max : exists b, admissible_max_cluster eta t s = Ok b /\
    (b = true <-> separated (distmax d) eta P Q P /\ separated (distmax d) eta P Q Q).
  Proof.
    destruct Bt as (D & V1 & V2 & H), Bs as (D' & V1' & V2' & H'). unfold admissible_max_cluster.
    rewrite (diam_max_val L d t T1 T2 D V1 V2 H), (diam_max_val L d s S1 S2 D' V1' V2' H').
    rewrite (dist_max_val L d t s T1 T2 S1 S2 D V1 V2 D' V1' V2'). cbn [rbind].
    eexists. split; [reflexivity|]. rewrite andb_true_iff, !fleb_true, sepm_t, sepm_s. tauto.
  Qed.

  Lemma run_adm_2_min : exists b, admissible_2_min_cluster sq eta t s = Ok b /\
    (b = true <-> separated (edist sq d) eta P Q P \/ separated (edist sq d) eta P Q Q).
  Proof.
    destruct Bt as (D & V1 & V2 & H), Bs as (D' & V1' & V2' & H'). unfold admissible_2_min_cluster.
    rewrite (diam_2_val d t T1 T2 D V1 V2), (diam_2_val d s S1 S2 D' V1' V2').
    rewrite (dist_2_val L d t s T1 T2 S1 S2 D V1 V2 D' V1' V2'). cbn [rbind].
    eexists. split; [reflexivity|]. rewrite orb_true_iff, !fleb_true, sep2_t, sep2_s. tauto.
  Qed.

  Lemma run_adm_2 : exists b, admissible_2_cluster eta t s = Ok b /\
    (b = true <-> separated (edist sq d) eta P Q P /\ separated (edist sq d) eta P Q Q).
  Proof.
    destruct Bt as (D & V1 & V2 & H), Bs as (D' & V1' & V2' & H'). unfold admissible_2_cluster. rewrite D.
    match goal with |- exists b, rbind ?r _ = _ /\ _ =>
      assert (R : rok r (fun v => v = (dist2 d T2 T1, dist2 d S2 S1, dist2 d nt ns))) end.
    { eapply (rok_for (fun i v => v = (dist2 i T2 T1, dist2 i S2 S1, dist2 i nt ns))).
      - reflexivity.
      - intros i v Hi ->. rewrite (aval_get _ _ _ _ V1), (aval_get _ _ _ _ V2),
          (aval_get _ _ _ _ V1'), (aval_get _ _ _ _ V2') by lia. cbn [rbind]. cbn [rok].
        rewrite max3_gap by (first [apply H|apply H']; lia).
        change (dist2 (S i) nt ns) with (fadd (dist2 i nt ns) (fmul (fsub (nt i) (ns i)) (fsub (nt i) (ns i)))).
        f_equal. f_equal. unfold near_t, near_s.
        destruct (flt (T2 i) (S1 i)); [ring|]. destruct (flt (S2 i) (T1 i)); ring.
      - auto. }
    apply rok_inv in R as (v & -> & ->). cbn [rbind].
    eexists. split; [reflexivity|]. rewrite andb_true_iff, !fleb_true.
    rewrite !sq_scale by (first [exact He|apply (dist2_nn L)]). rewrite sep2_t, sep2_s. tauto.
  Qed.
  End Two.
End Adm.
