(** * factorizations.c: triangular matrices

    Model of /repo/Library/factorizations.c, code paths without BLAS.  As in
    Amatrix.v, structs are passed by value and index arithmetic is done without
    wrap-around.

    The source repeats the same loop for every combination of [atrans] and
    [xtrans].  The model writes each of these loops once, with the accesses to
    [a] and [x] as parameters ([la] reads an entry of the matrix as it is used,
    [lx] and [sx] read and write an entry of the vector, row or column that is
    being transformed); the functions pass the accesses of the source. *)
From Coq Require Import Arith List Bool.
From Verif Require Import Fld Prog View.

Section Factor.
Context {K : fops}.

(** [CONJ(a->a[i + j * a->ld])] *)
Definition mloadc (a : mat) (i j : nat) : prog K K := x <- mload a i j ;; Ret (fconj x).

(** Library/factorizations.c:19-36 [diagsolve_amatrix_avector] *)
Definition diagsolve_amatrix_avector (atrans : bool) (a : mat) (x : vec) : prog K unit :=
  let n := Nat.min (mrows a) (mcols a) in
  if atrans then
    for_ 0 n (fun i => v <- vload x i ;; d <- mloadc a i i ;; vstore x i (v / d)%F)
  else
    for_ 0 n (fun i => v <- vload x i ;; d <- mload a i i ;; vstore x i (v / d)%F).

(** Library/factorizations.c:64-88 [diagsolve_amatrix] *)
Definition diagsolve_amatrix (atrans : bool) (a : mat) (xtrans : bool) (x : mat) : prog K unit :=
  let n := Nat.min (mrows a) (mcols a) in
  if xtrans then
    for_ 0 n (fun i =>
      d <- (if atrans then mloadc a i i else mload a i i) ;;
      let alpha := (f1 / d)%F in
      for_ 0 (mrows x) (fun j => v <- mload x j i ;; mstore x j i (v * alpha)%F))
  else
    for_ 0 n (fun i =>
      d <- (if atrans then mloadc a i i else mload a i i) ;;
      let alpha := (f1 / d)%F in
      for_ 0 (mcols x) (fun j => v <- mload x i j ;; mstore x i j (v * alpha)%F)).

(** Library/factorizations.c:91-106 [diageval_amatrix_avector] *)
Definition diageval_amatrix_avector (atrans : bool) (a : mat) (x : vec) : prog K unit :=
  let n := Nat.min (mrows a) (mcols a) in
  passert (mcols a <=? vdim x) ;;;
  for_ 0 n (fun i =>
    alpha <- (if atrans then mloadc a i i else mload a i i) ;;
    v <- vload x i ;; vstore x i (v * alpha)%F).

(** Library/factorizations.c:136-160 [diageval_amatrix] *)
Definition diageval_amatrix (atrans : bool) (a : mat) (xtrans : bool) (x : mat) : prog K unit :=
  let n := Nat.min (mrows a) (mcols a) in
  if xtrans then
    for_ 0 n (fun i =>
      alpha <- (if atrans then mloadc a i i else mload a i i) ;;
      for_ 0 (mrows x) (fun j => v <- mload x j i ;; mstore x j i (v * alpha)%F))
  else
    for_ 0 n (fun i =>
      alpha <- (if atrans then mloadc a i i else mload a i i) ;;
      for_ 0 (mcols x) (fun j => v <- mload x i j ;; mstore x i j (v * alpha)%F)).

(** Library/factorizations.c:201-238 [diageval_realavector_amatrix].  Simplification: the
    vector of reals is a [vec] of field elements. *)
Definition diageval_realavector_amatrix (alpha : K) (atrans : bool) (a : vec) (xtrans : bool)
  (x : mat) : prog K unit :=
  if xtrans then
    passert (mcols x <=? vdim a) ;;;
    if (vdim a <? 1) || (mrows x <? 1) then Ret tt else
    for_ 0 (mcols x) (fun i =>
      d <- vload a i ;;
      let beta := if atrans then (fconj alpha * d)%F else fconj (alpha * d)%F in
      for_ 0 (mrows x) (fun j => v <- mload x j i ;; mstore x j i (v * beta)%F))
  else
    passert (mrows x <=? vdim a) ;;;
    if (vdim a <? 1) || (mcols x <? 1) then Ret tt else
    for_ 0 (mrows x) (fun i =>
      d <- vload a i ;;
      let beta := if atrans then (alpha * fconj d)%F else (alpha * d)%F in
      for_ 0 (mcols x) (fun j => v <- mload x i j ;; mstore x i j (v * beta)%F)).

(** ** Solving *)

(** Body of the outer loop of lowersolve_/uppersolve_amatrix_avector: divide
    entry [j] by the diagonal, then subtract multiples of it from the [cnt]
    entries starting at [lo]. *)
Definition solve_step (aunit : bool) (la : nat -> nat -> prog K K) (x : vec) (j lo cnt : nat)
  : prog K unit :=
  newval <- (if aunit then vload x j
             else (v <- vload x j ;; d <- la j j ;; vstore x j (v / d)%F ;;; Ret (v / d)%F)) ;;
  for_ lo cnt (fun i => v <- vload x i ;; c <- la i j ;; vstore x i (v - c * newval)%F).

(** Library/factorizations.c:283-309 [lowersolve_amatrix_avector] *)
Definition lowersolve_amatrix_avector (aunit atrans : bool) (a : mat) (x : vec) : prog K unit :=
  let n := Nat.min (mrows a) (mcols a) in
  passert (mrows a <=? vdim x) ;;; passert (mcols a <=? vdim x) ;;;
  if atrans then fordown n (fun j => solve_step aunit (fun i j => mloadc a j i) x j 0 j)
  else for_ 0 n (fun j => solve_step aunit (fun i j => mload a i j) x j (j + 1) (n - (j + 1))).

(** Library/factorizations.c:312-338 [uppersolve_amatrix_avector] *)
Definition uppersolve_amatrix_avector (aunit atrans : bool) (a : mat) (x : vec) : prog K unit :=
  let n := Nat.min (mrows a) (mcols a) in
  passert (mrows a <=? vdim x) ;;; passert (mcols a <=? vdim x) ;;;
  if atrans then
    for_ 0 n (fun j => solve_step aunit (fun i j => mloadc a j i) x j (j + 1) (n - (j + 1)))
  else fordown n (fun j => solve_step aunit (fun i j => mload a i j) x j 0 j).

(** Library/factorizations.c:342-350 [triangularsolve_amatrix_avector] *)
Definition triangularsolve_amatrix_avector (alower aunit atrans : bool) (a : mat) (x : vec)
  : prog K unit :=
  if alower then lowersolve_amatrix_avector aunit atrans a x
  else uppersolve_amatrix_avector aunit atrans a x.

(** Body of the outer loops of lowersolve_/uppersolve_amatrix for [xtrans ==
    false]: scale row [k] of [x], then subtract multiples of it from the rows
    [lo, lo + cnt). *)
Definition solve_rows (aunit : bool) (la : nat -> nat -> prog K K) (x : mat) (k lo cnt : nat)
  : prog K unit :=
  (if aunit then Ret tt
   else (d <- la k k ;;
         let alpha := (f1 / d)%F in
         for_ 0 (mcols x) (fun j => v <- mload x k j ;; mstore x k j (v * alpha)%F))) ;;;
  for_ lo cnt (fun i => for_ 0 (mcols x) (fun j =>
    v <- mload x i j ;; c <- la i k ;; w <- mload x k j ;; mstore x i j (v - c * w)%F)).

(** The same for [xtrans == true]: columns of [x]. *)
Definition solve_cols (aunit : bool) (la : nat -> nat -> prog K K) (x : mat) (k lo cnt : nat)
  : prog K unit :=
  (if aunit then Ret tt
   else (d <- la k k ;;
         let alpha := (f1 / d)%F in
         for_ 0 (mrows x) (fun i => v <- mload x i k ;; mstore x i k (v * alpha)%F))) ;;;
  for_ 0 (mrows x) (fun i => for_ lo cnt (fun j =>
    v <- mload x i j ;; w <- mload x i k ;; c <- la j k ;; mstore x i j (v - w * c)%F)).

(** Library/factorizations.c:433-505 [lowersolve_amatrix] *)
Definition lowersolve_amatrix (aunit atrans : bool) (a : mat) (xtrans : bool) (x : mat)
  : prog K unit :=
  let n := Nat.min (mrows a) (mcols a) in
  if atrans then
    if xtrans then
      passert (n <=? mcols x) ;;;
      fordown n (fun k => solve_cols aunit (fun j k => mload a k j) x k 0 k)
    else
      passert (n <=? mrows x) ;;;
      fordown n (fun k => solve_rows aunit (fun i k => mloadc a k i) x k 0 k)
  else
    if xtrans then
      passert (n <=? mcols x) ;;;
      for_ 0 n (fun k => solve_cols aunit (fun j k => mloadc a j k) x k (k + 1) (n - (k + 1)))
    else
      passert (n <=? mrows x) ;;;
      for_ 0 n (fun k => solve_rows aunit (fun i k => mload a i k) x k (k + 1) (n - (k + 1))).

(** Library/factorizations.c:507-578 [uppersolve_amatrix] *)
Definition uppersolve_amatrix (aunit atrans : bool) (a : mat) (xtrans : bool) (x : mat)
  : prog K unit :=
  let n := Nat.min (mrows a) (mcols a) in
  if atrans then
    if xtrans then
      passert (n <=? mcols x) ;;;
      for_ 0 n (fun k => solve_cols aunit (fun j k => mload a k j) x k (k + 1) (n - (k + 1)))
    else
      passert (n <=? mrows x) ;;;
      for_ 0 n (fun k => solve_rows aunit (fun i k => mloadc a k i) x k (k + 1) (n - (k + 1)))
  else
    if xtrans then
      passert (n <=? mcols x) ;;;
      fordown n (fun k => solve_cols aunit (fun j k => mloadc a j k) x k 0 k)
    else
      passert (n <=? mrows x) ;;;
      fordown n (fun k => solve_rows aunit (fun i k => mload a i k) x k 0 k).

(** Library/factorizations.c:582-590 [triangularsolve_amatrix] *)
Definition triangularsolve_amatrix (alower aunit atrans : bool) (a : mat) (xtrans : bool) (x : mat)
  : prog K unit :=
  if alower then lowersolve_amatrix aunit atrans a xtrans x
  else uppersolve_amatrix aunit atrans a xtrans x.

(** ** Evaluation *)

(** [newval += la(i, j) * x(j)] for [j] in [lo, lo + cnt) *)
Definition eval_sum (la : nat -> nat -> prog K K) (lx : nat -> prog K K) (i lo cnt : nat)
  (newval : K) : prog K K :=
  forS lo cnt (fun j s => c <- la i j ;; v <- lx j ;; Ret (s + c * v)%F) newval.

(** The start value of [newval] for an entry of the triangle. *)
Definition eval_diag (aunit : bool) (la : nat -> nat -> prog K K) (lx : nat -> prog K K) (i : nat)
  : prog K K :=
  if aunit then lx i else (d <- la i i ;; v <- lx i ;; Ret (d * v)%F).

(** The branches "Left upper part, upper triangular", "Right part", "Lower
    part": [n] is the order of the triangle, [nc] the number of entries read and
    [nr] the number of entries written. *)
Definition eval_upper (aunit : bool) (n nr nc : nat) (la : nat -> nat -> prog K K)
  (lx : nat -> prog K K) (sx : nat -> K -> prog K unit) : prog K unit :=
  for_ 0 n (fun i =>
    v <- eval_diag aunit la lx i ;; v <- eval_sum la lx i (i + 1) (n - (i + 1)) v ;; sx i v) ;;;
  (if n <? nc then
     for_ 0 n (fun i => v <- lx i ;; v <- eval_sum la lx i n (nc - n) v ;; sx i v)
   else Ret tt) ;;;
  (if n <? nr then for_ n (nr - n) (fun i => sx i f0) else Ret tt).

(** The branches "Lower part", "Top part, lower triangular"; [nc] is the number of
    entries read for the lower part. *)
Definition eval_lower (aunit : bool) (n nr nc : nat) (la : nat -> nat -> prog K K)
  (lx : nat -> prog K K) (sx : nat -> K -> prog K unit) : prog K unit :=
  (if n <? nr then
     for_ n (nr - n) (fun i => v <- eval_sum la lx i 0 nc f0 ;; sx i v)
   else Ret tt) ;;;
  fordown n (fun i =>
    v <- eval_diag aunit la lx i ;; v <- eval_sum la lx i 0 i v ;; sx i v).

(** Library/factorizations.c:690-743 [lowereval_amatrix_avector] *)
Definition lowereval_amatrix_avector (aunit atrans : bool) (a : mat) (x : vec) : prog K unit :=
  let n := Nat.min (mrows a) (mcols a) in
  passert (mrows a <=? vdim x) ;;; passert (mcols a <=? vdim x) ;;;
  if atrans then
    eval_upper aunit n (mcols a) (mrows a) (fun i j => mloadc a j i) (vload x) (vstore x)
  else
    eval_lower aunit n (mrows a) (mcols a) (fun i j => mload a i j) (vload x) (vstore x).

(** Library/factorizations.c:746-799 [uppereval_amatrix_avector] *)
Definition uppereval_amatrix_avector (aunit atrans : bool) (a : mat) (x : vec) : prog K unit :=
  let n := Nat.min (mrows a) (mcols a) in
  passert (mrows a <=? vdim x) ;;; passert (mcols a <=? vdim x) ;;;
  if atrans then
    eval_lower aunit n (mcols a) n (fun i j => mloadc a j i) (vload x) (vstore x)
  else
    eval_upper aunit n (mrows a) (mcols a) (fun i j => mload a i j) (vload x) (vstore x).

(** Library/factorizations.c:803-811 [triangulareval_amatrix_avector] *)
Definition triangulareval_amatrix_avector (alower aunit atrans : bool) (a : mat) (x : vec)
  : prog K unit :=
  if alower then lowereval_amatrix_avector aunit atrans a x
  else uppereval_amatrix_avector aunit atrans a x.

(** Library/factorizations.c:1005-1122 [lowereval_amatrix] *)
Definition lowereval_amatrix (aunit atrans : bool) (a : mat) (xtrans : bool) (x : mat)
  : prog K unit :=
  let n := Nat.min (mrows a) (mcols a) in
  if xtrans then
    passert (mrows a <=? mcols x) ;;; passert (mcols a <=? mcols x) ;;;
    if atrans then
      for_ 0 (mrows x) (fun k =>
        eval_upper aunit n (mcols a) (mrows a) (fun i j => mload a j i)
          (fun i => mload x k i) (fun i v => mstore x k i v))
    else
      for_ 0 (mrows x) (fun k =>
        eval_lower aunit n (mrows a) (mcols a) (fun i j => mloadc a i j)
          (fun i => mload x k i) (fun i v => mstore x k i v))
  else
    passert (mrows a <=? mrows x) ;;; passert (mcols a <=? mrows x) ;;;
    if atrans then
      for_ 0 (mcols x) (fun k =>
        eval_upper aunit n (mcols a) (mrows a) (fun i j => mloadc a j i)
          (fun i => mload x i k) (fun i v => mstore x i k v))
    else
      for_ 0 (mcols x) (fun k =>
        eval_lower aunit n (mrows a) (mcols a) (fun i j => mload a i j)
          (fun i => mload x i k) (fun i v => mstore x i k v)).

(** Library/factorizations.c:1125-1242 [uppereval_amatrix] *)
Definition uppereval_amatrix (aunit atrans : bool) (a : mat) (xtrans : bool) (x : mat)
  : prog K unit :=
  let n := Nat.min (mrows a) (mcols a) in
  if xtrans then
    passert (mrows a <=? mcols x) ;;; passert (mcols a <=? mcols x) ;;;
    if atrans then
      for_ 0 (mrows x) (fun k =>
        eval_lower aunit n (mcols a) (mrows a) (fun i j => mload a j i)
          (fun i => mload x k i) (fun i v => mstore x k i v))
    else
      for_ 0 (mrows x) (fun k =>
        eval_upper aunit n (mrows a) (mcols a) (fun i j => mloadc a i j)
          (fun i => mload x k i) (fun i v => mstore x k i v))
  else
    passert (mrows a <=? mrows x) ;;; passert (mcols a <=? mrows x) ;;;
    if atrans then
      for_ 0 (mcols x) (fun k =>
        eval_lower aunit n (mcols a) (mrows a) (fun i j => mloadc a j i)
          (fun i => mload x i k) (fun i v => mstore x i k v))
    else
      for_ 0 (mcols x) (fun k =>
        eval_upper aunit n (mrows a) (mcols a) (fun i j => mload a i j)
          (fun i => mload x i k) (fun i v => mstore x i k v)).

(** Library/factorizations.c:1246-1253 [triangulareval_amatrix] *)
Definition triangulareval_amatrix (alower aunit atrans : bool) (a : mat) (xtrans : bool) (x : mat)
  : prog K unit :=
  if alower then lowereval_amatrix aunit atrans a xtrans x
  else uppereval_amatrix aunit atrans a xtrans x.

(** Body of the loops of triangularaddmul_amatrix: add the product of [adim]
    entries of [a] and [bdim] entries of [b]; [la i] and [lb k] read them. *)
Definition addouter (alpha : K) (la lb : nat -> prog K K) (c : mat) (aoff adim boff bdim : nat)
  : prog K unit :=
  for_ 0 bdim (fun k => for_ 0 adim (fun i =>
    z <- mload c (aoff + i) (boff + k) ;; x <- la (aoff + i) ;; y <- lb (boff + k) ;;
    mstore c (aoff + i) (boff + k) (z + alpha * x * y)%F)).

(** Library/factorizations.c:1256-1447 [triangularaddmul_amatrix].  The 32-bit
    products [(aoff + i) * ainc] and [(boff + k) * binc] are taken without
    wrap-around. *)
Definition triangularaddmul_amatrix (alpha : K) (alower atrans : bool) (a : mat)
  (blower btrans : bool) (b c : mat) : prog K unit :=
  if atrans then
    passert (mrows c =? mcols a) ;;;
    if btrans then
      passert (mrows a =? mcols b) ;;; passert (mcols c =? mrows b) ;;;
      for_ 0 (mrows a) (fun j =>
        let aoff := if alower then 0 else j in
        let adim := if alower then Nat.min (j + 1) (mcols a) else mcols a - Nat.min j (mcols a) in
        let boff := if blower then j else 0 in
        let bdim := if blower then mrows b - Nat.min j (mrows b) else Nat.min (j + 1) (mrows b) in
        addouter alpha (fun i => mloadc a j i) (fun k => mloadc b k j) c aoff adim boff bdim)
    else
      passert (mrows a =? mrows b) ;;; passert (mcols c =? mcols b) ;;;
      for_ 0 (mrows a) (fun j =>
        let aoff := if alower then 0 else j in
        let adim := if alower then Nat.min (j + 1) (mcols a) else mcols a - Nat.min j (mcols a) in
        let boff := if blower then 0 else j in
        let bdim := if blower then Nat.min (j + 1) (mcols b) else mcols b - Nat.min j (mcols b) in
        addouter alpha (fun i => mloadc a j i) (fun k => mload b j k) c aoff adim boff bdim)
  else
    passert (mrows c =? mrows a) ;;;
    if btrans then
      passert (mcols a =? mcols b) ;;; passert (mcols c =? mrows b) ;;;
      for_ 0 (mcols a) (fun j =>
        let aoff := if alower then j else 0 in
        let adim := if alower then mrows a - Nat.min j (mrows a) else Nat.min (j + 1) (mrows a) in
        let boff := if blower then j else 0 in
        let bdim := if blower then mrows b - Nat.min j (mrows b) else Nat.min (j + 1) (mrows b) in
        addouter alpha (fun i => mload a i j) (fun k => mloadc b k j) c aoff adim boff bdim)
    else
      passert (mcols a =? mrows b) ;;; passert (mcols c =? mcols b) ;;;
      for_ 0 (mcols a) (fun j =>
        let aoff := if alower then j else 0 in
        let adim := if alower then mrows a - Nat.min j (mrows a) else Nat.min (j + 1) (mrows a) in
        let boff := if blower then 0 else j in
        let bdim := if blower then Nat.min (j + 1) (mcols b) else mcols b - Nat.min j (mcols b) in
        addouter alpha (fun i => mload a i j) (fun k => mload b j k) c aoff adim boff bdim).

(** Library/factorizations.c:1450-1489 [copy_lower_amatrix] *)
Definition copy_lower_amatrix (a : mat) (aunit : bool) (b : mat) : prog K unit :=
  let rows := Nat.min (mrows a) (mrows b) in
  let cols := Nat.min (mcols a) (mcols b) in
  for_ 0 cols (fun j =>
    for_ 0 (Nat.min rows j) (fun i => mstore b i j f0) ;;;
    let i := Nat.min rows j in
    i <- (if aunit && (i <? rows) && (i =? j) then mstore b i j f1 ;;; Ret (i + 1)%nat else Ret i) ;;
    for_ i (rows - i) (fun i => x <- mload a i j ;; mstore b i j x)) ;;;
  for_ cols (mcols b - cols) (fun j => for_ 0 rows (fun i => mstore b i j f0)).

(** Library/factorizations.c:1492-1525 [copy_upper_amatrix] *)
Definition copy_upper_amatrix (a : mat) (aunit : bool) (b : mat) : prog K unit :=
  let rows := Nat.min (mrows a) (mrows b) in
  let cols := Nat.min (mcols a) (mcols b) in
  for_ 0 cols (fun j =>
    i <- (if aunit then
            for_ 0 (Nat.min rows j) (fun i => x <- mload a i j ;; mstore b i j x) ;;;
            let i := Nat.min rows j in
            if (i <? rows) && (i =? j) then mstore b i j f1 ;;; Ret (i + 1)%nat else Ret i
          else
            for_ 0 (Nat.min rows (j + 1)) (fun i => x <- mload a i j ;; mstore b i j x) ;;;
            Ret (Nat.min rows (j + 1))) ;;
    for_ i (mrows b - i) (fun i => mstore b i j f0)).

End Factor.
