(** * Admissibility conditions: specification *)
From Coq Require Import Arith List Bool.
From Verif Require Import Fld Ord Prog Arr Cluster ClusterSpec.
Import ListNotations.

(** The cluster [t] has the bounding box [B1, B2] in [d] dimensions. *)
Definition box_of {K : ofops} (d : nat) (t : cluster K) (B1 B2 : nat -> K) : Prop :=
  c_dim t = d /\ aval (c_bmin t) d B1 /\ aval (c_bmax t) d B2 /\ forall j, j < d -> fle (B1 j) (B2 j).

(** The set [R] has a diameter of at most [eta] times the distance of the sets
    [P] and [Q]. *)
Definition separated {K : ofops} (dist : (nat -> K) -> (nat -> K) -> K) (eta : K)
  (P Q R : (nat -> K) -> Prop) : Prop :=
  forall p q x x', P p -> Q q -> R x -> R x' -> fle (dist x x') (eta * dist p q)%F.

(** Euclidean distance. *)
Definition edist {K : ofops} (sq : K -> K) (d : nat) (x y : nat -> K) : K := sq (dist2 d x y).

(** The ball around the box [B1, B2]: its centre is that of the box and its
    diameter the distance of the corners. *)
Definition in_ball {K : ofops} (sq : K -> K) (d : nat) (B1 B2 x : nat -> K) : Prop :=
  fle (f2 * edist sq d x (fun j => fdiv (B1 j + B2 j) f2))%F (edist sq d B1 B2).

(** Every cluster of the tree [t] has a bounding box that contains the supports
    [Smin k, Smax k] of its indices [k]. *)
Definition boxed_tree {K : ofops} (d : nat) (Smin Smax : nat -> nat -> K) (f : nat -> nat) (t : cluster K) : Prop :=
  forall r, In r (nodes t) -> exists B1 B2, box_of d r B1 B2 /\
    forall k j, In k (indices f r) -> j < d -> fle (B1 j) (Smin k j) /\ fle (Smax k j) (B2 j).
