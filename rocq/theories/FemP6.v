(** * Finite elements: gradients and areas of a mesh without degenerate triangles *)
From Coq Require Import Arith Lia List Bool Ring.
From Verif Require Import Fld Ord Prog Arr HmSpec Tri2d Tri2dSpec Tri2dP Tri2dP2 Tri2dP3 Fem FemSpec FemP FemP3 FemP4.
Import ListNotations.
Local Open Scope nat_scope.

Section Exist.
  Context {K : ofops} (L : ofield_laws K) (w : mview K).
  Add Ring Kring_fem7 : (rl_ring K (fl_ring K (ol_field K L))).

  Definition c0 (j : nat) := cv w (mt w j 1) (mt w j 2).
  Definition c1 (j : nat) := cv w (mt w j 2) (mt w j 0).
  Definition c2 (j : nat) := cv w (mt w j 0) (mt w j 1).
  Definition D (j : nat) : K := det (mx w (c0 j)) (mx w (c1 j)) (mx w (c2 j)).
  Definition gradient (d : K) (q r : K * K) : K * K := ((snd q - snd r) / d, (fst r - fst q) / d)%F.
  Definition Gx (j v : nat) : K * K :=
    if v =? c0 j then gradient (D j) (mx w (c1 j)) (mx w (c2 j))
    else if v =? c1 j then gradient (D j) (mx w (c2 j)) (mx w (c0 j))
    else if v =? c2 j then gradient (D j) (mx w (c0 j)) (mx w (c1 j)) else (f0, f0).
  Definition Ax (j : nat) : K := (half K * rabs (D j))%F.

  Lemma gradient_ok (p q r : K * K) d : d = det p q r -> d <> f0 -> is_grad p q r (gradient d q r).
  Proof.
    intros E N. pose proof (fl_inv K (ol_field K L) d N) as I. unfold is_grad, gradient, fdiv. cbn [fst snd].
    split.
    - transitivity (- (finv d * det p q r))%F; [unfold det; ring|]. rewrite <- E, I. reflexivity.
    - transitivity (- (finv d * det p q r))%F; [unfold det; ring|]. rewrite <- E, I. reflexivity.
  Qed.

  Lemma grads_exist : nondegenerate w -> hat_gradients w Gx.
  Proof.
    intros HN j v0 v1 v2 Hj C. pose proof (HN j v0 v1 v2 Hj C) as N.
    destruct (corners_cv _ _ _ _ _ C) as (E0 & E1 & E2). fold (c0 j) in E0. fold (c1 j) in E1. fold (c2 j) in E2.
    destruct C as (N1 & N2 & N3 & _). unfold Gx, D. rewrite E0, E1, E2.
    assert (Q1 : det (mx w v0) (mx w v1) (mx w v2) = det (mx w v1) (mx w v2) (mx w v0)) by (unfold det; ring).
    assert (Q2 : det (mx w v0) (mx w v1) (mx w v2) = det (mx w v2) (mx w v0) (mx w v1)) by (unfold det; ring).
    split; [|split; [|split]].
    - rewrite Nat.eqb_refl. apply gradient_ok; auto.
    - rewrite (proj2 (Nat.eqb_neq v1 v0)) by congruence. rewrite Nat.eqb_refl. apply gradient_ok; auto.
    - rewrite (proj2 (Nat.eqb_neq v2 v0)) by congruence. rewrite (proj2 (Nat.eqb_neq v2 v1)) by congruence.
      rewrite Nat.eqb_refl. apply gradient_ok; auto.
    - intros v A0 A1 A2. rewrite (proj2 (Nat.eqb_neq v v0)), (proj2 (Nat.eqb_neq v v1)), (proj2 (Nat.eqb_neq v v2)) by assumption.
      reflexivity.
  Qed.

  Lemma rabs_nn (x : K) : fle f0 (rabs x).
  Proof.
    unfold rabs. destruct (flt x f0) eqn:E; [|exact E]. apply (olt_le (ofield_order L)), (fopp_pos L). exact E.
  Qed.
  Lemma half_nn : fle f0 (half K).
  Proof.
    apply (olt_le (ofield_order L)). unfold half, fdiv. replace (1 * finv (1 + 1))%F with (finv (1 + 1) : K) by ring.
    apply (finv_pos L). apply (f2_pos L).
  Qed.
  Lemma areas_exist : areas w Ax.
  Proof.
    intros j v0 v1 v2 Hj C. destruct (corners_cv _ _ _ _ _ C) as (E0 & E1 & E2).
    fold (c0 j) in E0. fold (c1 j) in E1. fold (c2 j) in E2. unfold Ax, D. rewrite E0, E1, E2. split.
    - apply (fle_mul_nn L); [apply half_nn|apply rabs_nn].
    - cbv zeta. set (d := det _ _ _).
      assert (X : (half K * rabs d + half K * rabs d)%F = rabs d).
      { transitivity ((half K + half K) * rabs d)%F; [ring|]. rewrite (half_two (ol_field K L) (lit2_ne L)). ring. }
      rewrite X. unfold rabs. destruct (flt d f0); auto.
  Qed.
End Exist.
