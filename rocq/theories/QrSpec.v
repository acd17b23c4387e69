(** * Vocabulary for QR decompositions *)
From Coq Require Import Arith List Bool.
From Verif Require Import Fld Prog View Spec Chol CholSpec Qr.

Section Spec.
Context {K : fops}.

(** [Q^* Q = I] and [Q Q^* = I] *)
Definition unitary (n : nat) (Q : nat -> nat -> K) : Prop :=
  forall i j, i < n -> j < n ->
    mmul n (tr true Q) Q i j = idf i j /\ mmul n Q (tr true Q) i j = idf i j.

(** Column [k] of [F] stores the vector [v = (0, ..., 0, 1, F (k+1) k, ...)] *)
Definition rvec (F : nat -> nat -> K) (k i : nat) : K :=
  if i <? k then f0 else if i =? k then f1 else F i k.
(** and represents the reflection [I - t k * v v^*]. *)
Definition rmat (F : nat -> nat -> K) (t : nat -> K) (k i j : nat) : K :=
  (idf i j - t k * rvec F k i * fconj (rvec F k j))%F.
(** The product of the first [r] reflections. *)
Fixpoint qmat (n : nat) (F : nat -> nat -> K) (t : nat -> K) (r : nat) : nat -> nat -> K :=
  match r with
  | 0 => idf
  | S k => mmul n (qmat n F t k) (rmat F t k)
  end.

(** The first [r] entries of [tau] are [t]. *)
Definition tval (m : mem K) (tau : vec) (r : nat) (t : nat -> K) : Prop :=
  forall k, k < r -> get m (va tau k) = Val (t k).

(** [tau'] is the vector [tau] if it has at least [r] entries, and a new vector with [r]
    entries otherwise. *)
Definition tauof (r : nat) (tau tau' : vec) (m : mem K) : Prop :=
  tau' = tau /\ r <= vdim tau \/
  vdim tau < r /\ vblk tau' = next m /\ voff tau' = 0 /\ vdim tau' = r /\ vown tau' = true.
(** What a decomposition may change: the matrix, the vector and, if the vector is too short,
    the blocks of the old and of the new vector. *)
Definition qrchg (A : mat) (tau : vec) (r : nat) (m : mem K) (a : addr) : Prop :=
  inm A a \/ inv tau a \/ vdim tau < r /\ (fst a = vblk tau \/ fst a = next m).

(** The entries below the diagonal. *)
Definition below (i j : nat) : Prop := j < i.

(** [M] applied to the first [n] entries of a vector or to the first [n] rows of a matrix. *)
Definition hit (n : nat) (M : nat -> nat -> K) (g : nat -> K) (i : nat) : K := if i <? n then mvec n M g i else g i.
Definition hitm (n : nat) (M G : nat -> nat -> K) (i j : nat) : K := hit n M (fun l => G l j) i.

(** The squared Frobenius norm of an [n] times [c] matrix. *)
Definition fro2 (n c : nat) (M : nat -> nat -> K) : K := sum c (fun j => dot n (fun i => M i j) (fun i => M i j)).

(** The [c] columns of [g] are linearly independent. *)
Definition fullrank (n c : nat) (g : nat -> nat -> K) : Prop :=
  forall z : nat -> K, (forall i, i < n -> mvec c g z i = f0) -> forall j, j < c -> z j = f0.

(** Truncation criteria: the mode, and the squared norm that the relative criterion compares
    with, the squared Frobenius norm or the maximum of the squared norms of the columns. *)
Definition absmode (tm : option trunc) : bool := match tm with Some t => tm_absolute t | None => false end.
Definition fromode (tm : option trunc) : bool := match tm with Some t => tm_frobenius t | None => false end.
Definition firstnorm (O : qops K) (n c : nat) (tm : option trunc) (f : nat -> nat -> K) (x : K) : Prop :=
  if fromode tm then x = fro2 n c f
  else exists q, q < c /\ x = dot n (fun i => f i q) (fun i => f i q) /\
       forall j, j < c -> gtb O (dot n (fun i => f i j) (fun i => f i j)) x = false.

(** What the operations have to satisfy in addition to [rlaws]. *)
Record qlaws (O : qops K) : Prop := Qlaws {
  ql_r : rlaws O;
  ql_sqrt0 : rsqrt O f0 = f0;
  ql_sgn : forall x : K, (sgn1 O x * rsqrt O (fconj x * x))%F = x;
  ql_unit : forall x : K, (fconj (sgn1 O x) * sgn1 O x)%F = f1;
  ql_tiny : tiny O f0 = true;
  ql_tmono : forall a b : K, tiny O (a + fconj b * b) = true -> tiny O a = true;
  ql_gtr : forall a : K, gtb O a a = false;
  ql_gt : forall a b c : K, gtb O a b = false -> gtb O c b = true -> gtb O a c = false;
  ql_mono : forall a b c : K, gtb O (a + fconj b * b) c = false -> gtb O a c = false
}.
End Spec.
