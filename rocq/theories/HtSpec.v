(** * Vocabulary for the truncation of low-rank matrices *)
From Coq Require Import Arith Lia List Bool.
From Verif Require Import Fld Ord Prog View Spec Rkmatrix RkSpec CopSpec.
Import ListNotations.

Section Spec.
Context {K : fops}.

(** What is assumed of the singular values, e.g. that they are sorted *)
Implicit Types (good : nat -> (nat -> K) -> Prop).

(** [f = U diag(s) V] for an [r x c] matrix [f]; if [orth] holds, the columns of [U] and the rows of
    [V] are orthonormal. *)
Definition svdspec (orth : Prop) good (r c : nat) (f U : nat -> nat -> K) (s : nat -> K) (V : nat -> nat -> K) : Prop :=
  let k := Nat.min r c in
  (forall i j, i < r -> j < c -> f i j = sum k (fun l => U i l * s l * V l j)%F) /\
  (forall l, l < k -> fconj (s l) = s l) /\ good k s /\
  (orth -> orthonormal r k U /\ orthonormal c k (fun j l => fconj (V l j))).

(** The contract of [svd_amatrix] for matrices with dimensions in [dom]: for an initialised matrix
    and storage of the right size it stops and delivers a decomposition; apart from the results only
    the matrix itself is changed. *)
Definition svd_ok (orth : Prop) good (dom : nat -> nat -> Prop) (svd : mat -> vec -> mat -> mat -> prog K unit) : Prop :=
  forall c sigma u vt f (m : mem K), let k := Nat.min (mrows c) (mcols c) in
    dom (mrows c) (mcols c) -> mwf c -> mwf u -> mwf vt -> mval m c f -> valloc m sigma -> malloc m u -> malloc m vt ->
    vdim sigma = k -> mrows u = mrows c -> mcols u = k -> mrows vt = k -> mcols vt = mcols c ->
    NoDup [mblk c; vblk sigma; mblk u; mblk vt] ->
    ends (svd c sigma u vt) m (fun _ m' => exists f' U s V,
      svdspec orth good (mrows c) (mcols c) f U s V /\
      mval m' c f' /\ vval m' sigma s /\ mval m' u U /\ mval m' vt V /\
      keeps (fun a => inm c a \/ inv sigma a \/ inm u a \/ inm vt a) m m').

(** The contract of [findrank_truncmode]: it chooses a rank and changes nothing. *)
Definition rank_ok good (chosen : nat -> (nat -> K) -> nat -> Prop) (rank : vec -> prog K nat) : Prop :=
  forall sigma s (m : mem K), vval m sigma s -> good (vdim sigma) s ->
    ends (rank sigma) m (fun k m' => m' = m /\ k <= vdim sigma /\ chosen (vdim sigma) s k).

(** [D'] consists of the first [k] terms of a decomposition [U diag(s) V^*] of the [r x c] matrix [D],
    where [k] is the rank chosen for the singular values [s]. *)
Definition truncated (orth : Prop) good (chosen : nat -> (nat -> K) -> nat -> Prop) (r c : nat) (D D' : nat -> nat -> K) (k : nat) : Prop :=
  exists n U s V, k <= n /\ n <= Nat.min r c /\ good n s /\ chosen n s k /\ (forall l, l < n -> fconj (s l) = s l) /\
    (orth -> orthonormal r n U /\ orthonormal c n V) /\
    (forall i j, i < r -> j < c -> D i j = sum n (fun l => U i l * s l * fconj (V j l))%F) /\
    (forall i j, i < r -> j < c -> D' i j = sum k (fun l => U i l * s l * fconj (V j l))%F).

(** The storage of [r'] replaces that of [r]: everything else is as before, new blocks and blocks of
    [r] that are not used by [r'] are free. *)
Definition replaced (m : mem K) (r : rkm) (m' : mem K) (r' : rkm) : Prop :=
  rkown m' r' /\ (forall a, rkblk r' a -> rkblk r a \/ next m <= fst a) /\
  (forall a, fst a < next m -> ~ rkblk r a -> get m' a = get m a) /\
  (forall a, rkblk r a \/ next m <= fst a -> ~ rkblk r' a -> get m' a = Free).
End Spec.

(** The square of the Frobenius norm *)
Definition fro2 {K : fops} (r c : nat) (E : nat -> nat -> K) : K := sum c (fun j => sum r (fun i => fconj (E i j) * E i j))%F.

Section Err.
Context {K : ofops}.

(** Singular values: sorted and not negative *)
Definition sorted (n : nat) (s : nat -> K) : Prop := (forall i, S i < n -> fle (s (S i)) (s i)) /\ forall i, i < n -> fle f0 (s i).

(** The square of the Euclidean norm of a real vector *)
Definition sq (n : nat) (x : nat -> K) : K := sum n (fun i => x i * x i)%F.

(** The difference of two [r x c] matrices is at most [eps], measured in the Frobenius norm or the
    spectral norm, absolutely or relative to the norm of [D].  Instead of the spectral norm, the
    squares [N] of all of its upper bounds are used. *)
Definition within (frobenius absolute : bool) (eps : K) (r c : nat) (D D' : nat -> nat -> K) : Prop :=
  if frobenius then
    fle (fro2 r c (fun i j => D i j - D' i j)%F) (if absolute then eps * eps else eps * eps * fro2 r c D)%F
  else forall N x,
    (if absolute then N = f1 else forall y, fle (sq r (mvec c D y)) (N * sq c y)%F) ->
    fle (sq r (mvec c (fun i j => D i j - D' i j)%F x)) (eps * eps * N * sq c x)%F.
End Err.
