(** * Vocabulary for the Cholesky and LDL^T decompositions *)
From Coq Require Import Arith List Bool.
From Verif Require Import Fld Spec Chol.

Section Spec.
Context {K : fops}.

(** The hermitian matrix whose lower triangle is [f]. *)
Definition herm (f : nat -> nat -> K) (i j : nat) : K := if j <=? i then f i j else fconj (f j i).

(** [v^* f v] *)
Definition quad (n : nat) (f : nat -> nat -> K) (v : nat -> K) : K := dot n v (mvec n f v).

Variable O : rops K.

(** [v^* f v > 0] for all [v] except zero. *)
Definition posdef (n : nat) (f : nat -> nat -> K) : Prop :=
  forall v : nat -> K, (exists i, i < n /\ v i <> f0) -> nonpos O (quad n f v) = false.

(** What the operations on reals have to satisfy; a field element is real if it equals
    its conjugate. *)
Record rlaws : Prop := Rlaws {
  rw_re : forall x : K, fconj x = x -> re O x = x;
  rw_real : forall x : K, fconj x = x -> offreal O x = false;
  rw_sqrt : forall x : K, fconj x = x -> nonpos O x = false ->
    (rsqrt O x * rsqrt O x = x)%F /\ fconj (rsqrt O x) = rsqrt O x /\ nonpos O (rsqrt O x) = false;
  rw_0 : nonpos O f0 = true;
  rw_sumsq : forall n (x : nat -> K), nonpos O (dot n x x) = true -> forall i, i < n -> x i = f0
}.
End Spec.
