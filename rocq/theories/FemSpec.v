(** * Piecewise linear finite elements: specification

    The trial space has one hat function for each vertex: the continuous
    function that is linear on each triangle, one in the vertex and zero in all
    others.  Vertices that are not on the boundary are degrees of freedom, the
    others are fixed. *)
From Coq Require Import Arith List Bool.
From Verif Require Import Fld Ord Prog Arr HmSpec Sparse Tri2d Tri2dSpec Fem.
Import ListNotations.
Local Open Scope nat_scope.

(** The vertices below [V] with the property [P] have the consecutive numbers
    [0, ..., n - 1], in this order. *)
Definition numbering (P : nat -> Prop) (V n : nat) (num : nat -> nat) : Prop :=
  (forall i, i < V -> P i -> num i < n) /\
  (forall i j, i < j -> j < V -> P i -> P j -> num i < num j) /\
  (forall k, k < n -> exists i, i < V /\ P i /\ num i = k).

Section Spec.
  Context {K : ofops}.
  Implicit Types w : mview K.

  Definition free w (i : nat) : Prop := mxb w i = 0.

  (** The structure [dc] describes the trial space on the mesh [w], [num] are
      the numbers of the vertices. *)
  Definition space_is (dc : tri2dp1 K) w (num : nat -> nat) : Prop :=
    mesh_is (p1_t2 dc) w /\
    aval (p1_dof dc) (mV w) (fun i => mxb w i =? 0) /\ aval (p1_idx dc) (mV w) num /\
    numbering (free w) (mV w) (p1_ndof dc) num /\
    numbering (fun i => ~ free w i) (mV w) (p1_nfix dc) num.

  (** The vertex [u] is a corner of the triangle [j]. *)
  Definition corner w (j u : nat) : Prop :=
    exists v0 v1 v2, corners w j v0 v1 v2 /\ (u = v0 \/ u = v1 \/ u = v2).

  (** The vertices [u] and [v] belong to the same triangle. *)
  Definition together w (u v : nat) : Prop := exists j, j < mT w /\ corner w j u /\ corner w j v.

  (** [g] is the gradient of the affine function with the value one in [p]
      and zero in [q] and [r]. *)
  Definition is_grad (p q r g : K * K) : Prop :=
    (fst g * (fst q - fst p) + snd g * (snd q - snd p) = - (1))%F /\
    (fst g * (fst r - fst p) + snd g * (snd r - snd p) = - (1))%F.

  (** [G j v] is the gradient of the hat function of the vertex [v] on the
      triangle [j]. *)
  Definition hat_gradients w (G : nat -> nat -> K * K) : Prop :=
    forall j v0 v1 v2, j < mT w -> corners w j v0 v1 v2 ->
      is_grad (mx w v0) (mx w v1) (mx w v2) (G j v0) /\
      is_grad (mx w v1) (mx w v2) (mx w v0) (G j v1) /\
      is_grad (mx w v2) (mx w v0) (mx w v1) (G j v2) /\
      (forall v, v <> v0 -> v <> v1 -> v <> v2 -> G j v = (f0, f0)).

  (** [area j] is the area of the triangle [j]. *)
  Definition areas w (area : nat -> K) : Prop :=
    forall j v0 v1 v2, j < mT w -> corners w j v0 v1 v2 ->
      fle f0 (area j) /\
      let d := det (mx w v0) (mx w v1) (mx w v2) in
      ((area j + area j)%F = d \/ (area j + area j)%F = (- d)%F).

  (** No triangle is degenerate. *)
  Definition nondegenerate w : Prop :=
    forall j v0 v1 v2, j < mT w -> corners w j v0 v1 v2 -> det (mx w v0) (mx w v1) (mx w v2) <> f0.

  (** The value of the hat function of [v] in the midpoint of the edge [e]. *)
  Definition hat_mid w (v e : nat) : K :=
    if (fst (me w e) =? v) || (snd (me w e) =? v) then half K else f0.

  (** The midpoint of the edge [e]. *)
  Definition edge_mid w (e : nat) : K * K := mid (mx w (fst (me w e))) (mx w (snd (me w e))).

  (** The energy of two hat functions: the integral of the product of their
      gradients. *)
  Definition energy w (G : nat -> nat -> K * K) (area : nat -> K) (u v : nat) : K :=
    sum (mT w) (fun j => area j * (fst (G j u) * fst (G j v) + snd (G j u) * snd (G j v)))%F.

  (** The midpoint rule for the integral of a function with the values
      [h e] in the midpoint of the edge [e].  It is exact
      for polynomials of degree two, thus for products of two hat functions. *)
  Definition midpoint_rule w (area : nat -> K) (h : nat -> K) : K :=
    sum (mT w) (fun j => area j / lit3 * (h (mt w j 0) + h (mt w j 1) + h (mt w j 2)))%F.

  (** The value of the hat function of the vertex [j] of the coarse mesh [w] in
      the vertex [i] of its refinement: an old vertex or the midpoint of an
      edge. *)
  Definition hat_fine w (j i : nat) : K :=
    if i <? mV w then (if i =? j then f1 else f0) else hat_mid w j (i - mV w).
End Spec.
