(** * Finite elements: specification of the error norm and of the geometry *)
From Coq Require Import Arith List Bool.
From Verif Require Import Fld Ord Prog Arr HmSpec Tri2d Tri2dSpec Fem FemSpec.
Local Open Scope nat_scope.

Section Spec.
  Context {K : ofops}.
  Implicit Types w : mview K.

  (** The optional coefficient vector has the entries [c]; without a vector
      the coefficients are zero. *)
  Definition coeffs (b : option (arr K)) (n : nat) (c : nat -> K) : Prop :=
    match b with Some b => aval b n c | None => forall i, c i = f0 end.

  (** The value in the midpoint of the edge [e] of the continuous piecewise
      linear function with the values [u v] in the vertices. *)
  Definition lin_mid w (u : nat -> K) (e : nat) : K := sum (mV w) (fun v => u v * hat_mid w v e)%F.

  (** [lo] and [hi] are the minimum and the maximum of the numbers [h v] for the
      vertices [v] with [R v]. *)
  Definition range (R : nat -> Prop) (h : nat -> K) (lo hi : K) : Prop :=
    (forall v, R v -> fle lo (h v) /\ fle (h v) hi) /\
    (exists v, R v /\ lo = h v) /\ (exists v, R v /\ hi = h v).

  (** The vertices in which the support of the hat function of [u] has its
      corners. *)
  Definition support w (u v : nat) : Prop := v = u \/ together w u v.
End Spec.
