(** * amatrix.c: dense matrices

    Model of /repo/Library/amatrix.c, code paths without BLAS.  The structs are
    passed by value as [mat]; the counter [active_amatrix] is not modelled.
    Index arithmetic for entries is done in [longindex] (size_t) in this file and
    modelled without wrap-around. *)
From Coq Require Import Arith List Bool NArith.
From Verif Require Import Fld Prog View Avector.

Section Amatrix.
Context {K : fops}.

(** Library/amatrix.c:20-37 [init_amatrix] (and new_amatrix :157-167).  Simplification: for an
    empty matrix the code stores NULL; the model allocates an empty block. *)
Definition init_amatrix (rows cols : nat) : prog K mat :=
  b <- palloc (rows * cols) ;; Ret (Mat b 0 rows rows cols true).

(** Library/amatrix.c:39-62 [init_sub_amatrix] (and new_sub_amatrix :169-179).  Assertions
    without wrap-around; see [init_sub_amatrix_u32]. *)
Definition init_sub_amatrix (src : mat) (rows roff cols coff : nat) : prog K mat :=
  passert (roff + rows <=? mrows src) ;;;
  passert (coff + cols <=? mcols src) ;;;
  Ret (Mat (mblk src) (moff src + roff + mld src * coff) (mld src) rows cols false).

(** The same with 32-bit unsigned sums in the assertions. *)
Definition init_sub_amatrix_u32 (src : mat) (rows roff cols coff : nat) : prog K mat :=
  passert (((N.of_nat roff + N.of_nat rows) mod 2 ^ 32 <=? N.of_nat (mrows src))%N) ;;;
  passert (((N.of_nat coff + N.of_nat cols) mod 2 ^ 32 <=? N.of_nat (mcols src))%N) ;;;
  Ret (Mat (mblk src) (moff src + roff + mld src * coff) (mld src) rows cols false).

(** Library/amatrix.c:64-83 [init_vec_amatrix]; the division [src->dim / cols] traps for
    [cols = 0] *)
Definition init_vec_amatrix (src : vec) (rows cols : nat) : prog K mat :=
  if cols =? 0 then Fail EDiv0 else
  passert (rows <=? vdim src / cols) ;;;
  Ret (Mat (vblk src) (voff src) rows rows cols false).

(** Library/amatrix.c:85-103 [init_pointer_amatrix] (and new_pointer_amatrix :181-191), with the
    assignment [a->cols = rows] as written in the source *)
Definition init_pointer_amatrix (src : addr) (rows cols : nat) : prog K mat :=
  Ret (Mat (fst src) (snd src) rows rows rows false).

(** Library/amatrix.c:317-327 [clear_amatrix] *)
Definition clear_amatrix (a : mat) : prog K unit :=
  for_ 0 (mcols a) (fun j => for_ 0 (mrows a) (fun i => mstore a i j f0)).

(** Library/amatrix.c:105-119 [init_zero_amatrix] (and new_zero_amatrix :193-203) *)
Definition init_zero_amatrix (rows cols : nat) : prog K mat :=
  a <- init_amatrix rows cols ;;
  for_ 0 cols (fun j => for_ 0 rows (fun i => mstore a i j f0)) ;;;
  Ret a.

(** Library/amatrix.c:121-138 [init_identity_amatrix] (and new_identity_amatrix :205-215) *)
Definition init_identity_amatrix (rows cols : nat) : prog K mat :=
  a <- init_amatrix rows cols ;;
  for_ 0 cols (fun j => for_ 0 rows (fun i => mstore a i j f0)) ;;;
  for_ 0 (Nat.min rows cols) (fun i => mstore a i i f1) ;;;
  Ret a.

(** Library/amatrix.c:140-155 [uninit_amatrix] (and del_amatrix :217-224) *)
Definition uninit_amatrix (a : mat) : prog K unit :=
  if mown a then pfree (mblk a) else Ret tt.

(** Library/amatrix.c:226-241 [resize_amatrix] *)
Definition resize_amatrix (a : mat) (rows cols : nat) : prog K mat :=
  passert (mown a) ;;;
  if (rows =? mrows a) && (cols =? mcols a) then Ret a
  else pfree (mblk a) ;;; b <- palloc (rows * cols) ;; Ret (Mat b 0 rows rows cols true).

(** Library/amatrix.c:243-277 [resizecopy_amatrix].  The loop variables run on: the first
    inner loop covers [i < min rows a->rows], the second continues from there. *)
Definition resizecopy_amatrix (a : mat) (rows cols : nat) : prog K mat :=
  passert (mown a) ;;;
  if (rows =? mrows a) && (cols =? mcols a) then Ret a
  else
    nb <- palloc (rows * cols) ;;
    let na := Mat nb 0 rows rows cols true in
    let rm := Nat.min rows (mrows a) in
    let cm := Nat.min cols (mcols a) in
    for_ 0 cm (fun j =>
      for_ 0 rm (fun i => c <- mload a i j ;; mstore na i j c) ;;;
      for_ rm (rows - rm) (fun i => mstore na i j f0)) ;;;
    for_ cm (cols - cm) (fun j => for_ 0 rows (fun i => mstore na i j f0)) ;;;
    pfree (mblk a) ;;;
    Ret na.

(** Library/amatrix.c:329-351 [clear_lower_amatrix] *)
Definition clear_lower_amatrix (a : mat) (strict : bool) : prog K unit :=
  if strict then
    for_ 0 (mcols a) (fun j => for_ (j + 1) (mrows a - (j + 1)) (fun i => mstore a i j f0))
  else
    for_ 0 (mcols a) (fun j => for_ j (mrows a - j) (fun i => mstore a i j f0)).

(** Library/amatrix.c:353-375 [clear_upper_amatrix].  In the non-strict case the loop bound
    is [i <= UINT_MIN(j, rows - 1)]; for [rows = 0] the subtraction wraps to
    2^32-1, so the bound is [j]. *)
Definition clear_upper_amatrix (a : mat) (strict : bool) : prog K unit :=
  if strict then
    for_ 0 (mcols a) (fun j => for_ 0 (Nat.min j (mrows a)) (fun i => mstore a i j f0))
  else
    for_ 0 (mcols a) (fun j =>
      for_ 0 (S (if mrows a =? 0 then j else Nat.min j (mrows a - 1)))
        (fun i => mstore a i j f0)).

(** Library/amatrix.c:377-394 [identity_amatrix] *)
Definition identity_amatrix (a : mat) : prog K unit :=
  for_ 0 (mcols a) (fun j => for_ 0 (mrows a) (fun i => mstore a i j f0)) ;;;
  for_ 0 (Nat.min (mcols a) (mrows a)) (fun i => mstore a i i f1).

(** Library/amatrix.c:396-410 [random_amatrix]; the values drawn are the argument [rnd] *)
Definition random_amatrix (rnd : nat -> nat -> K) (a : mat) : prog K unit :=
  for_ 0 (mcols a) (fun j => for_ 0 (mrows a) (fun i => mstore a i j (rnd i j))).

(** Library/amatrix.c:549-576 [copy_sub_amatrix] *)
Definition copy_sub_amatrix (atrans : bool) (a b : mat) : prog K unit :=
  if atrans then
    for_ 0 (Nat.min (mcols a) (mrows b)) (fun i =>
      for_ 0 (Nat.min (mrows a) (mcols b)) (fun j =>
        c <- mload a j i ;; mstore b i j (fconj c)))
  else
    for_ 0 (Nat.min (mcols a) (mcols b)) (fun j =>
      for_ 0 (Nat.min (mrows a) (mrows b)) (fun i =>
        c <- mload a i j ;; mstore b i j c)).

(** Library/amatrix.c:484-499 [copy_amatrix] *)
Definition copy_amatrix (atrans : bool) (a b : mat) : prog K unit :=
  if atrans then
    passert (mrows a =? mcols b) ;;; passert (mcols a =? mrows b) ;;; copy_sub_amatrix true a b
  else
    passert (mrows a =? mrows b) ;;; passert (mcols a =? mcols b) ;;; copy_sub_amatrix false a b.

(** Library/amatrix.c:501-536 [copy_colpiv_amatrix]; reading [colpiv] is a function call *)
Definition copy_colpiv_amatrix (atrans : bool) (a : mat) (colpiv : nat -> nat) (b : mat)
  : prog K unit :=
  if atrans then
    passert (mrows b =? mcols a) ;;; passert (mcols b =? mrows a) ;;;
    for_ 0 (mcols a) (fun j =>
      passert (colpiv j <? mcols a) ;;;
      for_ 0 (mrows a) (fun i => c <- mload a i (colpiv j) ;; mstore b j i (fconj c)))
  else
    passert (mrows b =? mrows a) ;;; passert (mcols b =? mcols a) ;;;
    for_ 0 (mcols a) (fun j =>
      passert (colpiv j <? mcols a) ;;;
      for_ 0 (mrows a) (fun i => c <- mload a i (colpiv j) ;; mstore b i j c)).

(** Library/amatrix.c:538-547 [clone_amatrix] *)
Definition clone_amatrix (src : mat) : prog K mat :=
  trg <- init_amatrix (mrows src) (mcols src) ;;
  copy_amatrix false src trg ;;;
  Ret trg.

(** Library/amatrix.c:693-706 [scale_amatrix] *)
Definition scale_amatrix (alpha : K) (a : mat) : prog K unit :=
  for_ 0 (mcols a) (fun j => for_ 0 (mrows a) (fun i =>
    c <- mload a i j ;; mstore a i j (c * alpha)%F)).

(** Library/amatrix.c:709-726 [conjugate_amatrix] (for a real build [fconj] is the identity) *)
Definition conjugate_amatrix (a : mat) : prog K unit :=
  for_ 0 (mcols a) (fun j => for_ 0 (mrows a) (fun i =>
    c <- mload a i j ;; mstore a i j (fconj c))).

(** Library/amatrix.c:752-775 [dotprod_amatrix] *)
Definition dotprod_amatrix (a b : mat) : prog K K :=
  passert (mrows a =? mrows b) ;;; passert (mcols a =? mcols b) ;;;
  forS 0 (mcols a) (fun j s => forS 0 (mrows a) (fun i s =>
    x <- mload a i j ;; y <- mload b i j ;; Ret (s + fconj x * y)%F) s) f0.

(** Library/amatrix.c:835-850 [normfrob2_amatrix] *)
Definition normfrob2_amatrix (a : mat) : prog K K :=
  forS 0 (mcols a) (fun j s => forS 0 (mrows a) (fun i s =>
    x <- mload a i j ;; Ret (s + fconj x * x)%F) s) f0.

(** Library/amatrix.c:801-816 [normfrob_amatrix], for a given square root *)
Definition normfrob_amatrix (sqrt : K -> K) (a : mat) : prog K K :=
  s <- normfrob2_amatrix a ;; Ret (sqrt s).

(** Library/amatrix.c:887-904 [addeval_amatrix_avector] *)
Definition addeval_amatrix_avector (alpha : K) (a : mat) (src trg : vec) : prog K unit :=
  passert (mcols a <=? vdim src) ;;; passert (mrows a <=? vdim trg) ;;;
  for_ 0 (mrows a) (fun i =>
    s <- forS 0 (mcols a) (fun j s =>
           x <- mload a i j ;; y <- vload src j ;; Ret (s + x * y)%F) f0 ;;
    t <- vload trg i ;; vstore trg i (t + alpha * s)%F).

(** Library/amatrix.c:906-924 [addevaltrans_amatrix_avector] *)
Definition addevaltrans_amatrix_avector (alpha : K) (a : mat) (src trg : vec) : prog K unit :=
  passert (mrows a <=? vdim src) ;;; passert (mcols a <=? vdim trg) ;;;
  for_ 0 (mcols a) (fun j =>
    s <- forS 0 (mrows a) (fun i s =>
           x <- mload a i j ;; y <- vload src i ;; Ret (s + fconj x * y)%F) f0 ;;
    t <- vload trg j ;; vstore trg j (t + alpha * s)%F).

(** Library/amatrix.c:927-935 [mvm_amatrix_avector] *)
Definition mvm_amatrix_avector (alpha : K) (atrans : bool) (a : mat) (src trg : vec) : prog K unit :=
  if atrans then addevaltrans_amatrix_avector alpha a src trg
  else addeval_amatrix_avector alpha a src trg.

(** Library/amatrix.c:966-995 [add_amatrix] *)
Definition add_amatrix (alpha : K) (atrans : bool) (a b : mat) : prog K unit :=
  if atrans then
    passert (mrows a <=? mcols b) ;;; passert (mcols a <=? mrows b) ;;;
    for_ 0 (mrows a) (fun i => for_ 0 (mcols a) (fun j =>
      x <- mload a i j ;; y <- mload b j i ;; mstore b j i (y + alpha * fconj x)%F))
  else
    passert (mrows a <=? mrows b) ;;; passert (mcols a <=? mcols b) ;;;
    for_ 0 (mcols a) (fun j => for_ 0 (mrows a) (fun i =>
      x <- mload a i j ;; y <- mload b i j ;; mstore b i j (y + alpha * x)%F)).

(** Library/amatrix.c:1046-1138 [addmul_amatrix], with the four loop nests as written *)
Definition addmul_amatrix (alpha : K) (atrans : bool) (a : mat) (btrans : bool) (b c : mat)
  : prog K unit :=
  if (mrows a =? 0) || (mcols a =? 0) || (mrows b =? 0) || (mcols b =? 0) then Ret tt
  else if atrans then
    if btrans then
      passert (mcols a <=? mrows c) ;;; passert (mrows b <=? mcols c) ;;;
      passert (mrows a =? mcols b) ;;;
      for_ 0 (mcols a) (fun i => for_ 0 (mrows b) (fun k => for_ 0 (mrows a) (fun j =>
        z <- mload c i k ;; x <- mload a j i ;; y <- mload b k j ;;
        mstore c i k (z + alpha * fconj x * fconj y)%F)))
    else
      passert (mcols a <=? mrows c) ;;; passert (mcols b <=? mcols c) ;;;
      passert (mrows a =? mrows b) ;;;
      for_ 0 (mcols b) (fun k => for_ 0 (mcols a) (fun i => for_ 0 (mrows a) (fun j =>
        z <- mload c i k ;; x <- mload a j i ;; y <- mload b j k ;;
        mstore c i k (z + alpha * fconj x * y)%F)))
  else
    if btrans then
      passert (mrows a <=? mrows c) ;;; passert (mrows b <=? mcols c) ;;;
      passert (mcols a =? mcols b) ;;;
      for_ 0 (mcols a) (fun j => for_ 0 (mrows b) (fun k => for_ 0 (mrows a) (fun i =>
        z <- mload c i k ;; x <- mload a i j ;; y <- mload b k j ;;
        mstore c i k (z + alpha * x * fconj y)%F)))
    else
      passert (mrows a <=? mrows c) ;;; passert (mcols b <=? mcols c) ;;;
      passert (mcols a =? mrows b) ;;;
      for_ 0 (mcols b) (fun k => for_ 0 (mcols a) (fun j => for_ 0 (mrows a) (fun i =>
        z <- mload c i k ;; x <- mload a i j ;; y <- mload b j k ;;
        mstore c i k (z + alpha * x * y)%F))).

(** Library/amatrix.c:1187-1233 [bidiagmul_amatrix].  [j + 1 < rows] is the loop bound; the last
    index [j] after the loop is [rows - 1]. *)
Definition bidiagmul_amatrix (alpha : K) (atrans : bool) (a : mat) (d l : vec) : prog K unit :=
  if atrans then
    passert (mrows a =? vdim d) ;;; passert (vdim l + 1 =? vdim d) ;;;
    if (mrows a <? 1) || (mcols a <? 1) then Ret tt else
    for_ 0 (mrows a - 1) (fun j =>
      dj <- vload d j ;; lj <- vload l j ;;
      let gamma := fconj (alpha * dj)%F in
      let beta := fconj (alpha * lj)%F in
      for_ 0 (mcols a) (fun i =>
        x <- mload a j i ;; y <- mload a (j + 1) i ;;
        mstore a j i (gamma * x + beta * y)%F)) ;;;
    dj <- vload d (mrows a - 1) ;;
    let gamma := fconj (alpha * dj)%F in
    for_ 0 (mcols a) (fun i => x <- mload a (mrows a - 1) i ;; mstore a (mrows a - 1) i (x * gamma)%F)
  else
    passert (mcols a =? vdim d) ;;; passert (vdim l + 1 =? vdim d) ;;;
    if (mrows a <? 1) || (mcols a <? 1) then Ret tt else
    for_ 0 (mcols a - 1) (fun j =>
      dj <- vload d j ;; lj <- vload l j ;;
      let gamma := (alpha * dj)%F in
      let beta := (alpha * lj)%F in
      for_ 0 (mrows a) (fun i =>
        x <- mload a i j ;; y <- mload a i (j + 1) ;;
        mstore a i j (gamma * x + beta * y)%F)) ;;;
    dj <- vload d (mcols a - 1) ;;
    let gamma := (alpha * dj)%F in
    for_ 0 (mrows a) (fun i => x <- mload a i (mcols a - 1) ;; mstore a i (mcols a - 1) (x * gamma)%F).

(** Library/amatrix.c:644-672 [check_ortho_amatrix] *)
Definition check_ortho_amatrix (sqrt : K -> K) (atrans : bool) (a : mat) : prog K K :=
  if atrans then
    a2 <- init_identity_amatrix (mrows a) (mrows a) ;;
    addmul_amatrix (- f1)%F false a true a a2 ;;;
    n <- normfrob_amatrix sqrt a2 ;;
    uninit_amatrix a2 ;;; Ret n
  else
    a2 <- init_identity_amatrix (mcols a) (mcols a) ;;
    addmul_amatrix (- f1)%F true a false a a2 ;;;
    n <- normfrob_amatrix sqrt a2 ;;
    uninit_amatrix a2 ;;; Ret n.

End Amatrix.
