(** * factorizations.c: LR decomposition

    Model of /repo/Library/factorizations.c, code paths without BLAS and without
    OpenMP tasks. *)
From Coq Require Import Arith NArith List Bool.
From Verif Require Import Fld Prog View Amatrix Factor.

(** [n - 1] for a 32-bit unsigned [n]: the bound of the loops [i < n - 1]. *)
Definition upred (n : nat) : nat := N.to_nat ((N.of_nat n + (2 ^ 32 - 1)) mod 2 ^ 32)%N.

(** [n * k / blocks] with a 32-bit product: the offset of block [k]. *)
Definition blockoff (n blocks k : nat) : nat :=
  N.to_nat (((N.of_nat n * N.of_nat k) mod 2 ^ 32) / N.of_nat blocks)%N.

Section Lr.
Context {K : fops}.

(** Body of the outer loop of lrdecomp_amatrix after the division. *)
Definition lr_step (a : mat) (n i : nat) (alpha : K) : prog K unit :=
  for_ (i + 1) (n - (i + 1)) (fun j =>
    v <- mload a j i ;; mstore a j i (v * alpha)%F ;;;
    for_ (i + 1) (n - (i + 1)) (fun k =>
      z <- mload a j k ;; x <- mload a j i ;; y <- mload a i k ;; mstore a j k (z - x * y)%F)).

(** The outer loop of lrdecomp_amatrix, [cnt] iterations to go, and the final test. *)
Fixpoint lr_loop (a : mat) (n i cnt : nat) : prog K nat :=
  match cnt with
  | 0 => d <- mload a i i ;; if feqb d f0 then Ret (i + 1)%nat else Ret 0
  | S c =>
      d <- mload a i i ;;
      if feqb d f0 then Ret (i + 1)%nat
      else (lr_step a n i (f1 / d)%F ;;; lr_loop a n (i + 1) c)
  end.

(** Library/factorizations.c:1563-1591 [lrdecomp_amatrix].  The loop bound [n - 1] is
    computed in 32-bit arithmetic, all other index arithmetic without
    wrap-around. *)
Definition lrdecomp_amatrix (a : mat) : prog K nat :=
  let n := mrows a in
  passert (n =? mcols a) ;;; lr_loop a n 0 (upred n).

(** Body of the loop over [k] of lrdecomp_blocks_amatrix after the factorization of the diagonal
    block [d]. *)
Definition lr_block (a : mat) (n blocks k : nat) (d : mat) : prog K unit :=
  let off i := blockoff n blocks i in
  let size i := blockoff n blocks (i + 1) - off i in
  for_ (k + 1) (blocks - (k + 1)) (fun j =>
    r <- init_sub_amatrix a (size k) (off k) (size j) (off j) ;;
    triangularsolve_amatrix true true false d false r ;;;
    uninit_amatrix r) ;;;
  for_ (k + 1) (blocks - (k + 1)) (fun i =>
    l <- init_sub_amatrix a (size i) (off i) (size k) (off k) ;;
    triangularsolve_amatrix false false true d true l ;;;
    uninit_amatrix l) ;;;
  uninit_amatrix d ;;;
  for_ (k + 1) (blocks - (k + 1)) (fun j =>
    r <- init_sub_amatrix a (size k) (off k) (size j) (off j) ;;
    for_ (k + 1) (blocks - (k + 1)) (fun i =>
      l <- init_sub_amatrix a (size i) (off i) (size k) (off k) ;;
      s <- init_sub_amatrix a (size i) (off i) (size j) (off j) ;;
      addmul_amatrix (fopp f1) false l false r s ;;;
      uninit_amatrix s ;;; uninit_amatrix l) ;;;
    uninit_amatrix r).

(** The loop over [k] of lrdecomp_blocks_amatrix, [cnt] iterations to go. *)
Fixpoint lr_blocks (a : mat) (n blocks k cnt : nat) : prog K nat :=
  match cnt with
  | 0 => Ret 0
  | S c =>
      let koff := blockoff n blocks k in
      let ksize := blockoff n blocks (k + 1) - koff in
      d <- init_sub_amatrix a ksize koff ksize koff ;;
      i <- lrdecomp_amatrix d ;;
      if 0 <? i then (uninit_amatrix d ;;; Ret (i + koff)%nat)
      else (lr_block a n blocks k d ;;; lr_blocks a n blocks (k + 1) c)
  end.

(** Library/factorizations.c:1594-1674 [lrdecomp_blocks_amatrix].  Block offsets are computed in
    32-bit arithmetic; the differences [n * (k + 1) / blocks - koff] without
    wrap-around. *)
Definition lrdecomp_blocks_amatrix (a : mat) (blocksize : nat) : prog K nat :=
  passert (mrows a =? mcols a) ;;;
  let n := mrows a in
  if n <=? blocksize then lrdecomp_amatrix a
  else if blocksize =? 0 then Fail EDiv0
  else lr_blocks a n (n / blocksize) 0 (n / blocksize).

(** Library/factorizations.c:1760-1765 [lrsolve_n_amatrix_avector] *)
Definition lrsolve_n_amatrix_avector (a : mat) (x : vec) : prog K unit :=
  triangularsolve_amatrix_avector true true false a x ;;;
  triangularsolve_amatrix_avector false false false a x.

(** Library/factorizations.c:1767-1772 [lrsolve_t_amatrix_avector] *)
Definition lrsolve_t_amatrix_avector (a : mat) (x : vec) : prog K unit :=
  triangularsolve_amatrix_avector false false true a x ;;;
  triangularsolve_amatrix_avector true true true a x.

(** Library/factorizations.c:1774-1783 [lrsolve_amatrix_avector] *)
Definition lrsolve_amatrix_avector (atrans : bool) (a : mat) (x : vec) : prog K unit :=
  if atrans then lrsolve_t_amatrix_avector a x else lrsolve_n_amatrix_avector a x.

(** Library/factorizations.c:1785-1790 [lrsolve_amatrix] *)
Definition lrsolve_amatrix (a x : mat) : prog K unit :=
  triangularsolve_amatrix true true false a false x ;;;
  triangularsolve_amatrix false false false a false x.

(** Library/factorizations.c:1792-1797 [lreval_n_amatrix_avector] *)
Definition lreval_n_amatrix_avector (a : mat) (x : vec) : prog K unit :=
  triangulareval_amatrix_avector false false false a x ;;;
  triangulareval_amatrix_avector true true false a x.

(** Library/factorizations.c:1799-1804 [lreval_t_amatrix_avector] *)
Definition lreval_t_amatrix_avector (a : mat) (x : vec) : prog K unit :=
  triangulareval_amatrix_avector true true true a x ;;;
  triangulareval_amatrix_avector false false true a x.

(** Library/factorizations.c:1806-1815 [lreval_amatrix_avector] *)
Definition lreval_amatrix_avector (atrans : bool) (a : mat) (x : vec) : prog K unit :=
  if atrans then lreval_t_amatrix_avector a x else lreval_n_amatrix_avector a x.

End Lr.
