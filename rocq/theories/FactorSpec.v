(** * Vocabulary for the theorems about factorizations.c *)
From Coq Require Import Arith Lia List Bool.
From Verif Require Import Fld Prog View Spec.

Section Spec.
Context {K : fops}.

(** The triangular matrix stored in [f]: entries on the other side of the
    diagonal are disregarded, and so is the diagonal if [unit] is set. *)
Definition tripart (lower unit : bool) (f : nat -> nat -> K) (i j : nat) : K :=
  if i =? j then (if unit then f1 else f i j)
  else if (if lower then j <? i else i <? j) then f i j else f0.

(** The diagonal matrix stored in [f]. *)
Definition diagpart (f : nat -> nat -> K) (i j : nat) : K := if i =? j then f i j else f0.

(** Plain transposition. *)
Definition transp (t : bool) (f : nat -> nat -> K) (i j : nat) : K := if t then f j i else f i j.

(** The entries that belong to the triangle; the diagonal does not if it is
    known to be one. *)
Definition intri (lower unit : bool) (i j : nat) : Prop :=
  i = j /\ unit = false \/ (if lower then j < i else i < j).

(** Only the entries of [A] selected by [ok] are known; their cells. *)
Definition pval (m : mem K) (A : mat) (ok : nat -> nat -> Prop) (f : nat -> nat -> K) : Prop :=
  forall i j, i < mrows A -> j < mcols A -> ok i j -> get m (ma A i j) = Val (f i j).
Definition inp (A : mat) (ok : nat -> nat -> Prop) (a : addr) : Prop :=
  exists i j, i < mrows A /\ j < mcols A /\ ok i j /\ a = ma A i j.
End Spec.

(** ** Linear systems *)
Section Systems.
Context {K : fops}.

(** The matrix [f] of order [n] has a trivial kernel, resp. a non-trivial one. *)
Definition regular (n : nat) (f : nat -> nat -> K) : Prop :=
  forall v : nat -> K, (forall i, i < n -> mvec n f v i = f0) -> forall i, i < n -> v i = f0.
Definition singular (n : nat) (f : nat -> nat -> K) : Prop :=
  exists v : nat -> K, (exists i, i < n /\ v i <> f0) /\ forall i, i < n -> mvec n f v i = f0.
End Systems.
