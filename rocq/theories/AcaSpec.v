(** * Specification of cross approximations *)
From Coq Require Import Arith Lia List Bool.
From Verif Require Import Fld Prog View Spec Qr.
Import ListNotations.

Section AcaSpec.
Context {K : fops} (gt : K -> K -> bool).

(** What the comparison of absolute values has to satisfy: a strict linear order in which squared
    absolute values are not negative. *)
Record gt_laws : Prop := GtLaws {
  gl_irr : forall a : K, gt a a = false;
  gl_asym : forall a b : K, gt a b = true -> gt b a = false;
  gl_trans : forall a b c : K, gt a b = false -> gt b c = false -> gt a c = false;
  gl_pos : forall a : K, gt f0 (abssqr a) = false
}.

(** [mu] is the square of the largest absolute value in a matrix. *)
Definition maxsq (r c : nat) (F : nat -> nat -> K) (mu : K) : Prop :=
  (forall i j, i < r -> j < c -> gt (abssqr (F i j)) mu = false) /\
  (mu = f0 \/ exists i j, i < r /\ j < c /\ mu = abssqr (F i j)).

(** Distinct indices below [n]. *)
Definition indices (n : nat) (l : list nat) : Prop := NoDup l /\ forall i, In i l -> i < n.
End AcaSpec.
