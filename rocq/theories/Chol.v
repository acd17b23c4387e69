(** * factorizations.c: Cholesky and LDL^T decomposition

    Model of /repo/Library/factorizations.c, code paths without BLAS and without
    OpenMP tasks. *)
From Coq Require Import Arith NArith List Bool.
From Verif Require Import Fld Prog View Amatrix Factor Lr.

(** Operations on field elements used by the two decompositions: [REAL(x)],
    [ABS(x - REAL(x)) > 1e-12], [x <= 0.0] and [REAL_SQRT(x)] for a real [x]
    (Library/basic.h:133-226).  Reals are field elements with zero imaginary part. *)
Record rops (K : fops) : Type := Rops {
  re : K -> K;
  offreal : K -> bool;
  nonpos : K -> bool;
  rsqrt : K -> K
}.
Arguments re {K}. Arguments offreal {K}. Arguments nonpos {K}. Arguments rsqrt {K}.

Section Chol.
Context {K : fops} (O : rops K).

(** Body of the outer loop of choldecomp_amatrix after the test of the pivot. *)
Definition chol_step (a : mat) (n i : nat) (diag : K) : prog K unit :=
  mstore a i i (rsqrt O diag) ;;;
  s <- mload a i i ;;
  let alpha := (f1 / s)%F in
  for_ (i + 1) (n - (i + 1)) (fun j => v <- mload a j i ;; mstore a j i (v * alpha)%F) ;;;
  for_ (i + 1) (n - (i + 1)) (fun j =>
    for_ (i + 1) (j - i) (fun k =>
      z <- mload a j k ;; x <- mload a j i ;; y <- mload a k i ;; mstore a j k (z - x * fconj y)%F)).

(** The outer loop of choldecomp_amatrix, [cnt] iterations to go, and the final test. *)
Fixpoint chol_loop (a : mat) (n i cnt : nat) : prog K nat :=
  d <- mload a i i ;;
  if offreal O d || nonpos O (re O d) then Ret (i + 1)%nat
  else match cnt with
       | 0 => mstore a i i (rsqrt O (re O d)) ;;; Ret 0
       | S c => chol_step a n i (re O d) ;;; chol_loop a n (i + 1) c
       end.

(** Library/factorizations.c:1837-1871 [choldecomp_amatrix].  [alpha = 1.0 / a_ii] is the
    quotient of field elements; in the code [alpha] is a real, but [a_ii] is one,
    too.  [n - 1] is computed in 32-bit arithmetic. *)
Definition choldecomp_amatrix (a : mat) : prog K nat :=
  let n := mrows a in
  passert (n =? mcols a) ;;; chol_loop a n 0 (upred n).

(** Body of the loop over [k] of choldecomp_blocks_amatrix after the factorization of the
    diagonal block [d]. *)
Definition chol_block (a : mat) (n blocks k : nat) (d : mat) : prog K unit :=
  let off i := blockoff n blocks i in
  let size i := blockoff n blocks (i + 1) - off i in
  for_ (k + 1) (blocks - (k + 1)) (fun i =>
    l <- init_sub_amatrix a (size i) (off i) (size k) (off k) ;;
    triangularsolve_amatrix true false false d true l ;;;
    uninit_amatrix l) ;;;
  uninit_amatrix d ;;;
  for_ (k + 1) (blocks - (k + 1)) (fun j =>
    r <- init_sub_amatrix a (size j) (off j) (size k) (off k) ;;
    for_ j (blocks - j) (fun i =>
      l <- init_sub_amatrix a (size i) (off i) (size k) (off k) ;;
      s <- init_sub_amatrix a (size i) (off i) (size j) (off j) ;;
      addmul_amatrix (fopp f1) false l true r s ;;;
      uninit_amatrix s ;;; uninit_amatrix l) ;;;
    uninit_amatrix r).

(** The loop over [k] of choldecomp_blocks_amatrix, [cnt] iterations to go. *)
Fixpoint chol_blocks (a : mat) (n blocks k cnt : nat) : prog K nat :=
  match cnt with
  | 0 => Ret 0
  | S c =>
      let koff := blockoff n blocks k in
      let ksize := blockoff n blocks (k + 1) - koff in
      d <- init_sub_amatrix a ksize koff ksize koff ;;
      i <- choldecomp_amatrix d ;;
      if 0 <? i then (uninit_amatrix d ;;; Ret (i + koff)%nat)
      else (chol_block a n blocks k d ;;; chol_blocks a n blocks (k + 1) c)
  end.

(** Library/factorizations.c:1874-1943 [choldecomp_blocks_amatrix].  Block offsets are computed
    in 32-bit arithmetic; the differences [n * (k + 1) / blocks - koff] without
    wrap-around. *)
Definition choldecomp_blocks_amatrix (a : mat) (blocksize : nat) : prog K nat :=
  passert (mrows a =? mcols a) ;;;
  let n := mrows a in
  if n <=? blocksize then choldecomp_amatrix a
  else if blocksize =? 0 then Fail EDiv0
  else chol_blocks a n (n / blocksize) 0 (n / blocksize).

(** Library/factorizations.c:2034-2039 [cholsolve_amatrix_avector] *)
Definition cholsolve_amatrix_avector (a : mat) (x : vec) : prog K unit :=
  triangularsolve_amatrix_avector true false false a x ;;;
  triangularsolve_amatrix_avector true false true a x.

(** Library/factorizations.c:2041-2048 [cholsolve_amatrix] *)
Definition cholsolve_amatrix (a x : mat) : prog K unit :=
  passert (mcols a =? mrows x) ;;;
  triangularsolve_amatrix true false false a false x ;;;
  triangularsolve_amatrix true false true a false x.

(** Library/factorizations.c:2050-2055 [choleval_amatrix_avector] *)
Definition choleval_amatrix_avector (a : mat) (x : vec) : prog K unit :=
  triangulareval_amatrix_avector true false true a x ;;;
  triangulareval_amatrix_avector true false false a x.

(** Body of the outer loop of ldltdecomp_amatrix after the test of the pivot. *)
Definition ldlt_step (a : mat) (n i : nat) (diag : K) : prog K unit :=
  let alpha := (f1 / diag)%F in
  for_ (i + 1) (n - (i + 1)) (fun j => v <- mload a j i ;; mstore a j i (v * alpha)%F) ;;;
  for_ (i + 1) (n - (i + 1)) (fun j =>
    for_ (i + 1) (j - i) (fun k =>
      z <- mload a j k ;; x <- mload a j i ;; y <- mload a k i ;;
      mstore a j k (z - diag * x * fconj y)%F)).

(** The outer loop of ldltdecomp_amatrix, [cnt] iterations to go, and the final test. *)
Fixpoint ldlt_loop (a : mat) (n i cnt : nat) : prog K nat :=
  d <- mload a i i ;;
  if offreal O d || feqb (re O d) f0 then Ret (i + 1)%nat
  else match cnt with
       | 0 => Ret 0
       | S c => ldlt_step a n i (re O d) ;;; ldlt_loop a n (i + 1) c
       end.

(** Library/factorizations.c:2095-2126 [ldltdecomp_amatrix].  [n - 1] is computed in 32-bit
    arithmetic. *)
Definition ldltdecomp_amatrix (a : mat) : prog K nat :=
  let n := mrows a in
  passert (n =? mcols a) ;;; ldlt_loop a n 0 (upred n).

(** Library/factorizations.c:2129-2135 [ldltsolve_amatrix_avector] *)
Definition ldltsolve_amatrix_avector (a : mat) (x : vec) : prog K unit :=
  triangularsolve_amatrix_avector true true false a x ;;;
  diagsolve_amatrix_avector false a x ;;;
  triangularsolve_amatrix_avector true true true a x.

(** Library/factorizations.c:2137-2145 [ldltsolve_amatrix] *)
Definition ldltsolve_amatrix (a x : mat) : prog K unit :=
  passert (mcols a =? mrows x) ;;;
  triangularsolve_amatrix true true false a false x ;;;
  diagsolve_amatrix false a false x ;;;
  triangularsolve_amatrix true true true a false x.

End Chol.
