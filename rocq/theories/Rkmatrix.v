(** * Low-rank matrices, Library/rkmatrix.c *)
From Coq Require Import Arith List Bool.
From Verif Require Import Fld Prog View Avector Amatrix Norm.
Import ListNotations.

(** struct _rkmatrix, Library/rkmatrix.h: the matrix [A B^*]. *)
Record rkm := Rk { rk_A : mat; rk_B : mat; rk_k : nat }.

Section Rk.
Context {K : fops}.

(** Library/rkmatrix.c:14-22 [init_rkmatrix] (and new_rkmatrix, Library/rkmatrix.c:45-53) *)
Definition init_rkmatrix (rows cols k : nat) : prog K rkm :=
  A <- init_amatrix rows k ;;
  B <- init_amatrix cols k ;;
  Ret (Rk A B k).

(** Library/rkmatrix.c:24-36 [init_sub_rkmatrix] (and new_sub_rkmatrix, Library/rkmatrix.c:55-63) *)
Definition init_sub_rkmatrix (src : rkm) (rows roff cols coff : nat) : prog K rkm :=
  let k := rk_k src in
  A <- init_sub_amatrix (rk_A src) rows roff k 0 ;;
  B <- init_sub_amatrix (rk_B src) cols coff k 0 ;;
  Ret (Rk A B k).

(** Library/rkmatrix.c:38-43 [uninit_rkmatrix] (and del_rkmatrix, Library/rkmatrix.c:65-71) *)
Definition uninit_rkmatrix (r : rkm) : prog K unit :=
  uninit_amatrix (rk_B r) ;;;
  uninit_amatrix (rk_A r).

(** Library/rkmatrix.c:85-91 [resize_rkmatrix] *)
Definition resize_rkmatrix (r : rkm) (rows cols k : nat) : prog K rkm :=
  A <- resize_amatrix (rk_A r) rows k ;;
  B <- resize_amatrix (rk_B r) cols k ;;
  Ret (Rk A B k).

(** Library/rkmatrix.c:77-83 [setrank_rkmatrix] *)
Definition setrank_rkmatrix (r : rkm) (k : nat) : prog K rkm :=
  A <- resize_amatrix (rk_A r) (mrows (rk_A r)) k ;;
  B <- resize_amatrix (rk_B r) (mrows (rk_B r)) k ;;
  Ret (Rk A B k).

(** Library/rkmatrix.c:136-159 [copy_rkmatrix]; returns the target, which may have been
    reallocated. *)
Definition copy_rkmatrix (atrans : bool) (a b : rkm) : prog K rkm :=
  if atrans then
    passert (mrows (rk_A a) =? mrows (rk_B b)) ;;;
    passert (mrows (rk_B a) =? mrows (rk_A b)) ;;;
    b <- (if rk_k b =? rk_k a then Ret b else setrank_rkmatrix b (rk_k a)) ;;
    copy_amatrix false (rk_A a) (rk_B b) ;;;
    copy_amatrix false (rk_B a) (rk_A b) ;;;
    Ret b
  else
    passert (mrows (rk_A a) =? mrows (rk_A b)) ;;;
    passert (mrows (rk_B a) =? mrows (rk_B b)) ;;;
    b <- (if rk_k b =? rk_k a then Ret b else setrank_rkmatrix b (rk_k a)) ;;
    copy_amatrix false (rk_A a) (rk_A b) ;;;
    copy_amatrix false (rk_B a) (rk_B b) ;;;
    Ret b.

(** Library/rkmatrix.c:124-134 [clone_rkmatrix] *)
Definition clone_rkmatrix (r : rkm) : prog K rkm :=
  rnew <- init_rkmatrix (mrows (rk_A r)) (mrows (rk_B r)) (rk_k r) ;;
  copy_rkmatrix false r rnew.

(** Library/rkmatrix.c:161-165 [scale_rkmatrix] *)
Definition scale_rkmatrix (alpha : K) (r : rkm) : prog K unit := scale_amatrix alpha (rk_A r).

(** Library/rkmatrix.c:167-173 [random_rkmatrix] *)
Definition random_rkmatrix (rndA rndB : nat -> nat -> K) (r : rkm) (kmax : nat) : prog K rkm :=
  r <- setrank_rkmatrix r kmax ;;
  random_amatrix rndA (rk_A r) ;;;
  random_amatrix rndB (rk_B r) ;;;
  Ret r.

(** Library/rkmatrix.c:179-202 [addeval_rkmatrix_avector] *)
Definition addeval_rkmatrix_avector (alpha : K) (r : rkm) (x y : vec) : prog K unit :=
  passert (vdim y =? mrows (rk_A r)) ;;;
  passert (vdim x =? mrows (rk_B r)) ;;;
  passert (rk_k r <=? mcols (rk_A r)) ;;;
  passert (rk_k r <=? mcols (rk_B r)) ;;;
  for_ 0 (rk_k r) (fun nu =>
    ac <- init_column_avector (rk_A r) nu ;;
    bc <- init_column_avector (rk_B r) nu ;;
    beta <- dotprod_avector bc x ;;
    add_avector (alpha * beta)%F ac y ;;;
    uninit_avector bc ;;;
    uninit_avector ac).

(** Library/rkmatrix.c:204-228 [addevaltrans_rkmatrix_avector] *)
Definition addevaltrans_rkmatrix_avector (alpha : K) (r : rkm) (x y : vec) : prog K unit :=
  passert (vdim x =? mrows (rk_A r)) ;;;
  passert (vdim y =? mrows (rk_B r)) ;;;
  passert (rk_k r <=? mcols (rk_A r)) ;;;
  passert (rk_k r <=? mcols (rk_B r)) ;;;
  for_ 0 (rk_k r) (fun nu =>
    ac <- init_column_avector (rk_A r) nu ;;
    bc <- init_column_avector (rk_B r) nu ;;
    beta <- dotprod_avector ac x ;;
    add_avector (alpha * beta)%F bc y ;;;
    uninit_avector bc ;;;
    uninit_avector ac).

(** Library/rkmatrix.c:230-238 [mvm_rkmatrix_avector] *)
Definition mvm_rkmatrix_avector (alpha : K) (rtrans : bool) (r : rkm) (x y : vec) : prog K unit :=
  if rtrans then addevaltrans_rkmatrix_avector alpha r x y else addeval_rkmatrix_avector alpha r x y.

(** Library/rkmatrix.c:240-245 [norm2_rkmatrix] *)
Definition norm2_rkmatrix (sq : K -> K) (pos : K -> bool) (rnd : nat -> K) (r : rkm) : prog K K :=
  norm2_matrix sq pos rnd (fun alpha t => mvm_rkmatrix_avector alpha t r) (mrows (rk_A r)) (mrows (rk_B r)).

(** Library/rkmatrix.c:247-253 [norm2diff_rkmatrix] *)
Definition norm2diff_rkmatrix (sq : K -> K) (pos : K -> bool) (rnd : nat -> K) (ra rb : rkm) : prog K K :=
  norm2diff_matrix sq pos rnd (fun alpha t => mvm_rkmatrix_avector alpha t ra) (fun alpha t => mvm_rkmatrix_avector alpha t rb)
    (mrows (rk_A ra)) (mrows (rk_B ra)).
End Rk.
