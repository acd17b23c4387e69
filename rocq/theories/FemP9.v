(** * Finite elements: the Laplace matrix is symmetric and semidefinite *)
From Coq Require Import Arith Lia List Bool Ring.
From Verif Require Import Fld Ord Prog Arr HmSpec Tri2d Tri2dSpec Tri2dP Tri2dP2 Tri2dP3 Fem FemSpec FemP FemP3 FemP4.
Import ListNotations.
Local Open Scope nat_scope.

Section Energy.
  Context {K : ofops} (L : ofield_laws K).
  Local Notation RL := (fl_ring K (ol_field K L)).
  Add Ring Kring_fem10 : (rl_ring K (fl_ring K (ol_field K L))).

  Lemma mul00 (y z : K) : (f0 * y * z)%F = f0.
  Proof. ring. Qed.
  Lemma mul0 (y : K) : (y * f0)%F = f0.
  Proof. ring. Qed.
  Lemma sum_prod n (c : nat -> K) (g h : nat -> K) :
    (sum n (fun u => c u * g u) * sum n (fun v => c v * h v))%F =
    sum n (fun u => sum n (fun v => c u * (g u * h v) * c v))%F.
  Proof.
    rewrite <- (sum_mul_r RL). apply sum_ext. intros u _. rewrite <- (sum_mul_l RL). apply sum_ext. intros v _. ring.
  Qed.

  Lemma energy_sum (w : mview K) G area n c :
    sum n (fun u => sum n (fun v => c u * energy w G area u v * c v))%F =
    sum (mT w) (fun j => area j * (sum n (fun u => c u * fst (G j u)) * sum n (fun v => c v * fst (G j v)) +
      sum n (fun u => c u * snd (G j u)) * sum n (fun v => c v * snd (G j v))))%F.
  Proof.
    transitivity (sum n (fun u => sum (mT w) (fun j => sum n (fun v =>
      c u * (area j * (fst (G j u) * fst (G j v) + snd (G j u) * snd (G j v))) * c v)))%F).
    - apply sum_ext. intros u _. rewrite (sum_swap RL). apply sum_ext. intros v _. unfold energy.
      rewrite <- (sum_mul_l RL), <- (sum_mul_r RL). reflexivity.
    - rewrite (sum_swap RL). apply sum_ext. intros j _. rewrite !sum_prod, <- (sum_add RL), <- (sum_mul_l RL).
      apply sum_ext. intros u _. rewrite <- (sum_add RL), <- (sum_mul_l RL). apply sum_ext. intros v _. ring.
  Qed.

  Lemma energy_nn (w : mview K) G area n c : mesh_ok w -> areas w area ->
    fle f0 (sum n (fun u => sum n (fun v => c u * energy w G area u v * c v)))%F.
  Proof.
    intros Hok HA. rewrite energy_sum. apply (sum_nn L). intros j Hj.
    destruct (proj1 (proj2 Hok) j Hj) as (v0 & v1 & v2 & C). destruct (HA j v0 v1 v2 Hj C) as [P _].
    apply (fle_mul_nn L); [exact P|]. apply (fle_add_nn L); apply (fsq_nn L).
  Qed.

  Lemma energy_sym (w : mview K) G area u v : energy w G area u v = energy w G area v u.
  Proof. unfold energy. apply sum_ext. intros j _. ring. Qed.

  (** The sum over the entries of a numbering. *)
  Lemma sum_numbered (P : nat -> bool) V n num (F : nat -> K) : numbering (fun v => P v = true) V n num ->
    sum n F = sum V (fun v => if P v then F (num v) else f0).
  Proof.
    intros N. pose proof N as (N1 & N2 & N3).
    transitivity (sum n (fun r => sum V (fun v => if P v && (num v =? r) then F r else f0))).
    - apply sum_ext. intros r Hr. destruct (N3 r Hr) as (v & Hv & Pv & Ev).
      rewrite (sum_single RL V v); [|exact Hv|].
      2: { intros i Hi Ni. destruct (P i) eqn:Pi; [|reflexivity]. destruct (Nat.eqb_spec (num i) r) as [Er|]; [|reflexivity].
           exfalso. apply Ni. apply (numbering_inj _ _ _ _ _ _ N Hi Hv Pi Pv). congruence. }
      rewrite Pv, Ev, Nat.eqb_refl. reflexivity.
    - rewrite (sum_swap RL). apply sum_ext. intros v Hv. destruct (P v) eqn:Pv; cbn [andb].
      + rewrite (sum_single RL n (num v)); [rewrite Nat.eqb_refl; reflexivity|apply N1; assumption|].
        intros i _ Ni. destruct (Nat.eqb_spec (num v) i); [congruence|reflexivity].
      + apply (sum_0 RL). reflexivity.
  Qed.

  (** The gradients of the hat functions on a triangle add up to zero. *)
  Lemma grads_zero (p q r g0 g1 g2 : K * K) : det p q r <> f0 ->
    is_grad p q r g0 -> is_grad q r p g1 -> is_grad r p q g2 ->
    (fst g0 + fst g1 + fst g2)%F = f0 /\ (snd g0 + snd g1 + snd g2)%F = f0.
  Proof.
    intros N [A1 A2] [B1 B2] [C1 C2].
    set (X := (fst g0 + fst g1 + fst g2)%F). set (Y := (snd g0 + snd g1 + snd g2)%F).
    assert (E1 : (X * (fst q - fst p) + Y * (snd q - snd p))%F = f0).
    { unfold X, Y. transitivity ((fst g0 * (fst q - fst p) + snd g0 * (snd q - snd p)) -
        (fst g1 * (fst p - fst q) + snd g1 * (snd p - snd q)) +
        ((fst g2 * (fst q - fst r) + snd g2 * (snd q - snd r)) - (fst g2 * (fst p - fst r) + snd g2 * (snd p - snd r))))%F; [ring|].
      rewrite A1, B2, C2, C1. ring. }
    assert (E2 : (X * (fst r - fst p) + Y * (snd r - snd p))%F = f0).
    { unfold X, Y. transitivity ((fst g0 * (fst r - fst p) + snd g0 * (snd r - snd p)) -
        (fst g2 * (fst p - fst r) + snd g2 * (snd p - snd r)) +
        ((fst g1 * (fst r - fst q) + snd g1 * (snd r - snd q)) - (fst g1 * (fst p - fst q) + snd g1 * (snd p - snd q))))%F; [ring|].
      rewrite A2, C1, B1, B2. ring. }
    assert (Z : forall z : K, (det p q r * z)%F = f0 -> z = f0).
    { intros z Hz. transitivity (finv (det p q r) * det p q r * z)%F; [rewrite (fl_inv K (ol_field K L)) by exact N; ring|].
      transitivity (finv (det p q r) * (det p q r * z))%F; [ring|]. rewrite Hz. ring. }
    split; apply Z.
    - transitivity ((X * (fst q - fst p) + Y * (snd q - snd p)) * (snd r - snd p) -
        (X * (fst r - fst p) + Y * (snd r - snd p)) * (snd q - snd p))%F; [unfold det; ring|]. rewrite E1, E2. ring.
    - transitivity ((X * (fst r - fst p) + Y * (snd r - snd p)) * (fst q - fst p) -
        (X * (fst q - fst p) + Y * (snd q - snd p)) * (fst r - fst p))%F; [unfold det; ring|]. rewrite E1, E2. ring.
  Qed.

  Lemma sum_three n (f : nat -> K) a b c : a < n -> b < n -> c < n -> a <> b -> b <> c -> c <> a ->
    (forall v, v <> a -> v <> b -> v <> c -> f v = f0) -> sum n f = (f a + f b + f c)%F.
  Proof.
    intros Ha Hb Hc Nab Nbc Nca Z.
    transitivity (sum n (fun v => (if v =? a then f v else f0) + (if v =? b then f v else f0) + (if v =? c then f v else f0)))%F.
    - apply sum_ext. intros v _. destruct (Nat.eqb_spec v a), (Nat.eqb_spec v b), (Nat.eqb_spec v c); try congruence; try ring.
      rewrite Z by assumption. ring.
    - rewrite !(sum_add RL), (sum_single RL n a), (sum_single RL n b), (sum_single RL n c), !Nat.eqb_refl; try assumption; try reflexivity;
        intros i _ Ni; match goal with |- (if ?x =? ?y then _ else _) = _ => destruct (Nat.eqb_spec x y); [congruence|reflexivity] end.
  Qed.

  Lemma energy_const (w : mview K) G area u : mesh_ok w -> nondegenerate w -> hat_gradients w G ->
    sum (mV w) (fun v => energy w G area u v) = f0.
  Proof.
    intros Hok HN HG. unfold energy. rewrite (sum_swap RL). apply (sum_0 RL). intros j Hj.
    destruct (proj1 (proj2 Hok) j Hj) as (v0 & v1 & v2 & C). destruct (HG j v0 v1 v2 Hj C) as (G0 & G1 & G2 & GZ).
    destruct (corners_lt w Hok _ _ _ _ C) as (B0 & B1 & B2). pose proof C as (N1 & N2 & N3 & _).
    rewrite (sum_three (mV w) _ v0 v1 v2); try assumption.
    - destruct (grads_zero _ _ _ _ _ _ (HN j v0 v1 v2 Hj C) G0 G1 G2) as [X Y].
      transitivity (area j * (fst (G j u) * (fst (G j v0) + fst (G j v1) + fst (G j v2)) +
        snd (G j u) * (snd (G j v0) + snd (G j v1) + snd (G j v2))))%F; [ring|]. rewrite X, Y. ring.
    - intros v A0 A1 A2. rewrite (GZ v A0 A1 A2). cbn [fst snd]. ring.
  Qed.
End Energy.
