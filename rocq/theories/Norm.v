(** * Model of the norm estimators of krylov.c

    /repo/Library/krylov.c:11-155.  The function pointer [mvm_t mvm] with its
    matrix argument is a program [mv alpha trans x y].  The square root, the
    test [norm > 0.0] and the random start vector are parameters. *)
From Coq Require Import Arith Lia List Bool.
From Verif Require Import Fld Prog View Avector Arr Sparse.
Import ListNotations.

Section Norm.
Context {K : fops} (sq : K -> K) (pos : K -> bool) (rnd : nat -> K).

(** NORM_STEPS, Library/basic.h:46 *)
Definition NORM_STEPS : nat := 20.

(** The loop of norm2_matrix, Library/krylov.c:28-39; [n] iterations are left. *)
Fixpoint norm2_loop (mv : K -> bool -> vec -> vec -> prog K unit) (x y : vec) (n : nat) (norm : K)
  : prog K K :=
  match n with
  | O => Ret norm
  | S n' =>
    if pos norm then
      scale_avector (f1 / norm)%F x ;;;
      clear_avector y ;;;
      mv f1 false x y ;;;
      clear_avector x ;;;
      mv f1 true y x ;;;
      norm' <- norm2_avector sq x ;;
      norm2_loop mv x y n' norm'
    else Ret norm
  end.

(** Library/krylov.c:14-45 [norm2_matrix] *)
Definition norm2_matrix (mv : K -> bool -> vec -> vec -> prog K unit) (rows cols : nat) : prog K K :=
  x <- init_avector cols ;;
  y <- init_avector rows ;;
  random_avector rnd x ;;;
  norm <- norm2_avector sq x ;;
  norm <- norm2_loop mv x y NORM_STEPS norm ;;
  uninit_avector y ;;;
  uninit_avector x ;;;
  Ret (sq norm).

(** Library/krylov.c:47-81 [norm2diff_matrix]: the same loop with two matrices. *)
Definition norm2diff_matrix (mvA mvB : K -> bool -> vec -> vec -> prog K unit) (rows cols : nat)
  : prog K K :=
  norm2_matrix (fun alpha t x y => mvA alpha t x y ;;; mvB (- alpha)%F t x y) rows cols.

(** Library/sparsematrix.c:404-409 [norm2_sparsematrix]: the number of rows is passed twice. *)
Definition norm2_sparsematrix (a : smat K) : prog K K :=
  norm2_matrix (fun alpha t => mvm_sparsematrix_avector alpha t a) (srows a) (srows a).

(** Library/sparsematrix.c:411-417 [norm2diff_sparsematrix] *)
Definition norm2diff_sparsematrix (a b : smat K) : prog K K :=
  norm2diff_matrix (fun alpha t => mvm_sparsematrix_avector alpha t a)
                   (fun alpha t => mvm_sparsematrix_avector alpha t b) (srows a) (srows a).
End Norm.
