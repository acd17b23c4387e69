(** * avector.c: vectors

    Model of /repo/Library/avector.c.  The structs themselves (pavector) are
    passed by value as [vec]; only the coefficient arrays live in memory, so
    [new_xxx_avector] (allocating the struct, then [init_xxx]) and [init_xxx]
    have the same model.  The counter [active_avector] is not modelled.  The code
    paths without BLAS are modelled. *)
From Coq Require Import Arith List Bool NArith.
From Verif Require Import Fld Prog View.

Section Avector.
Context {K : fops}.

(** Library/avector.c:20-35 [init_avector] (and new_avector :122-132).  Simplification:
    for [dim = 0] the code stores NULL; the model allocates an empty block. *)
Definition init_avector (dim : nat) : prog K vec :=
  b <- palloc dim ;; Ret (Vec b 0 dim true).

(** Library/avector.c:37-54 [init_sub_avector] (and new_sub_avector :134-144).  The
    assertion is evaluated without wrap-around here; the 32-bit version is
    [init_sub_avector_u32] below. *)
Definition init_sub_avector (src : vec) (dim off : nat) : prog K vec :=
  passert (off + dim <=? vdim src) ;;;
  Ret (Vec (vblk src) (voff src + off) dim false).

(** The same with the assertion [off + dim <= src->dim] in 32-bit unsigned
    arithmetic, as compiled. *)
Definition init_sub_avector_u32 (src : vec) (dim off : nat) : prog K vec :=
  passert (((N.of_nat off + N.of_nat dim) mod 2 ^ 32 <=? N.of_nat (vdim src))%N) ;;;
  Ret (Vec (vblk src) (voff src + off) dim false).

(** Library/avector.c:235-242 [clear_avector] *)
Definition clear_avector (v : vec) : prog K unit :=
  for_ 0 (vdim v) (fun i => vstore v i f0).

(** Library/avector.c:56-65 [init_zero_avector] (and new_zero_avector :146-156) *)
Definition init_zero_avector (dim : nat) : prog K vec :=
  v <- init_avector dim ;; clear_avector v ;;; Ret v.

(** Library/avector.c:67-88 [init_column_avector] *)
Definition init_column_avector (src : mat) (col : nat) : prog K vec :=
  passert (col <? mcols src) ;;;
  Ret (Vec (mblk src) (moff src + col * mld src) (mrows src) false).

(** Library/avector.c:90-106 [init_pointer_avector] (and new_pointer_avector :158-168).
    Simplification: the pointer is a valid block/offset pair, not NULL. *)
Definition init_pointer_avector (src : addr) (dim : nat) : prog K vec :=
  Ret (Vec (fst src) (snd src) dim false).

(** Library/avector.c:108-120 [uninit_avector] (and del_avector :170-175) *)
Definition uninit_avector (v : vec) : prog K unit :=
  if vown v then pfree (vblk v) else Ret tt.

(** Library/avector.c:177-187 [resize_avector] *)
Definition resize_avector (v : vec) (dim : nat) : prog K vec :=
  passert (vown v) ;;;
  if dim =? vdim v then Ret v
  else pfree (vblk v) ;;; b <- palloc dim ;; Ret (Vec b 0 dim true).

(** Library/avector.c:189-195 [shrink_avector] *)
Definition shrink_avector (v : vec) (dim : nat) : prog K vec :=
  passert (dim <=? vdim v) ;;; Ret (Vec (vblk v) (voff v) dim (vown v)).

(** Library/avector.c:244-251 [fill_avector] *)
Definition fill_avector (v : vec) (x : K) : prog K unit :=
  for_ 0 (vdim v) (fun i => vstore v i x).

(** Library/avector.c:253-261 [random_avector]; the values drawn are the argument [rnd]. *)
Definition random_avector (rnd : nat -> K) (v : vec) : prog K unit :=
  for_ 0 (vdim v) (fun i => vstore v i (rnd i)).

(** Library/avector.c:277-286 [copy_avector] *)
Definition copy_avector (v w : vec) : prog K unit :=
  passert (vdim v =? vdim w) ;;;
  for_ 0 (vdim v) (fun i => c <- vload v i ;; vstore w i c).

(** Library/avector.c:288-297 [copy_sub_avector] *)
Definition copy_sub_avector (v w : vec) : prog K unit :=
  for_ 0 (Nat.min (vdim v) (vdim w)) (fun i => c <- vload v i ;; vstore w i c).

(** Library/avector.c:326-333 [scale_avector] *)
Definition scale_avector (alpha : K) (v : vec) : prog K unit :=
  for_ 0 (vdim v) (fun i => c <- vload v i ;; vstore v i (c * alpha)%F).

(** Library/avector.c:343-354 [norm2_avector], the sum without the square root; [ABSSQR(x)] is
    [CONJ(x) * x] (Library/basic.h:166, 361-372) *)
Definition sumsqr_avector (v : vec) : prog K K :=
  forS 0 (vdim v) (fun i s => c <- vload v i ;; Ret (s + fconj c * c)%F) f0.

(** Library/avector.c:343-354 [norm2_avector], for a given square root function *)
Definition norm2_avector (sqrt : K -> K) (v : vec) : prog K K :=
  s <- sumsqr_avector v ;; Ret (sqrt s).

(** Library/avector.c:366-379 [dotprod_avector] *)
Definition dotprod_avector (x y : vec) : prog K K :=
  passert (vdim x =? vdim y) ;;;
  forS 0 (vdim x) (fun i s => a <- vload x i ;; b <- vload y i ;; Ret (s + fconj a * b)%F) f0.

(** Library/avector.c:391-401 [add_avector] *)
Definition add_avector (alpha : K) (x y : vec) : prog K unit :=
  passert (vdim x <=? vdim y) ;;;
  for_ 0 (vdim x) (fun i =>
    a <- vload x i ;; b <- vload y i ;; vstore y i (b + alpha * a)%F).

End Avector.
