(** * Adaptive cross approximation, Library/aca.c

    Arrays of indices are modelled as checked arrays ([arr]).  Index arithmetic does not wrap
    around. *)
From Coq Require Import Arith List Bool.
From Verif Require Import Fld Prog Arr View Avector Amatrix Rkmatrix Qr.
Import ListNotations.

Section Aca.
(** [gt x y] is the comparison [x > y] of reals, [sq] is REAL_SQRT. *)
Context {K : fops} (gt : K -> K -> bool) (sq : K -> K).

(** The exchange of two entries of an array of indices, [i = p[k]; p[k] = p[q]; p[q] = i;]
    (Library/aca.c:67-73 and 270-278). *)
Definition aswap (p : arr nat) (k q : nat) : res (arr nat) :=
  let* x := aget p k in
  let* y := aget p q in
  let* p := aset p k y in
  aset p q x.

(** The search for the maximal entry (Library/aca.c:49-59 and 102-113): squared absolute value, row
    and column. *)
Definition aca_search (a : mat) (rows cols k imax jmax : nat) : prog K (K * nat * nat) :=
  forS k (cols - k) (fun j s => forS k (rows - k) (fun i (s : K * nat * nat) =>
    v <- mload a i j ;;
    Ret (if gt (abssqr v) (fst (fst s)) then (abssqr v, i, j) else s)) s) (f0, imax, jmax).

(** The elimination step (Library/aca.c:78-97) after the exchange of rows and columns. *)
Definition aca_swapcols (a : mat) (rows k q : nat) : prog K unit :=
  for_ 0 rows (fun i => y <- mload a i q ;; z <- mload a i k ;; mstore a i q z ;;; mstore a i k y).
Definition aca_swaprows (a : mat) (cols k q : nat) : prog K unit :=
  for_ 0 cols (fun j => y <- mload a q j ;; z <- mload a k j ;; mstore a q j z ;;; mstore a k j y).
Definition aca_elim (a : mat) (rows cols k : nat) (alpha : K) : prog K unit :=
  for_ (k + 1) (rows - (k + 1)) (fun i => v <- mload a i k ;; mstore a i k (v * alpha)%F) ;;;
  for_ (k + 1) (cols - (k + 1)) (fun j => for_ (k + 1) (rows - (k + 1)) (fun i =>
    z <- mload a i j ;; x <- mload a i k ;; y <- mload a k j ;; mstore a i j (z - x * y)%F)).

(** The arrays used by both algorithms. *)
Record apiv := Apiv { ap_rperm : arr nat; ap_cperm : arr nat; ap_rpivot : arr nat; ap_cpivot : arr nat }.

(** The main loop of decomp_fullaca_rkmatrix (Library/aca.c:63-114), [cnt = maxrank - k]. *)
Fixpoint fullaca_loop (a : mat) (tol : K) (cnt k : nat) (s : K * nat * nat) (p : apiv) : prog K (nat * apiv) :=
  match cnt with
  | 0 => Ret (k, p)
  | S cnt =>
      let '(absA, imax, jmax) := s in
      if negb (gt absA tol) then Ret (k, p) else
      v <- mload a imax jmax ;;
      let alpha := (f1 / v)%F in
      rpivot <- lift (aswap (ap_rpivot p) k imax) ;;
      cpivot <- lift (aswap (ap_cpivot p) k jmax) ;;
      rperm <- lift (aset (ap_rperm p) k imax) ;;
      cperm <- lift (aset (ap_cperm p) k jmax) ;;
      aca_swapcols a (mrows a) k jmax ;;;
      aca_swaprows a (mcols a) k imax ;;;
      aca_elim a (mrows a) (mcols a) k alpha ;;;
      s <- aca_search a (mrows a) (mcols a) (k + 1) imax jmax ;;
      fullaca_loop a tol cnt (k + 1) s (Apiv rperm cperm rpivot cpivot)
  end.

(** Library/aca.c:124-141: the factors in the pivoted numbering *)
Definition aca_copy (a c d : mat) (k : nat) : prog K unit :=
  for_ 0 k (fun j =>
    for_ 0 j (fun i => mstore c i j f0) ;;;
    mstore c j j f1 ;;;
    for_ (j + 1) (mrows a - (j + 1)) (fun i => v <- mload a i j ;; mstore c i j v)) ;;;
  for_ 0 k (fun j =>
    for_ 0 j (fun i => mstore d i j f0) ;;;
    for_ j (mcols a - j) (fun i => v <- mload a j i ;; mstore d i j (fconj v))).

(** The reversal of the pivot permutations (Library/aca.c:144-153 and 338-348); [ca i j] and [da i j]
    are the addresses of the entries of the two factors. *)
Definition aca_swapat (c : nat -> nat -> addr) (i q j : nat) : prog K unit :=
  y <- pload (c i j) ;; z <- pload (c q j) ;; pstore (c i j) z ;;; pstore (c q j) y.
Definition aca_unpivot (ca da : nat -> nat -> addr) (k : nat) (rperm cperm : arr nat) : prog K unit :=
  fordown k (fun i => for_ 0 k (fun j =>
    ri <- lift (aget rperm i) ;;
    aca_swapat ca i ri j ;;;
    ci <- lift (aget cperm i) ;;
    aca_swapat da i ci j)).

(** Library/aca.c:17-175 [decomp_fullaca_rkmatrix]; returns the low-rank matrix and the pivot
    indices (which the code stores only if the caller asks for them). *)
Definition decomp_fullaca_rkmatrix (a : mat) (accur : K) (r : rkm) : prog K (rkm * list nat * list nat) :=
  let rows := mrows a in
  let cols := mcols a in
  let maxrank := Nat.min rows cols in
  let p := Apiv (anew maxrank) (anew maxrank) (aof (seq 0 rows)) (aof (seq 0 cols)) in
  s <- aca_search a rows cols 0 0 0 ;;
  let tol := (fst (fst s) * accur * accur)%F in
  kp <- fullaca_loop a tol maxrank 0 s p ;;
  let '(k, p) := kp in
  r <- resize_rkmatrix r rows cols k ;;
  aca_copy a (rk_A r) (rk_B r) k ;;;
  aca_unpivot (ma (rk_A r)) (ma (rk_B r)) k (ap_rperm p) (ap_cperm p) ;;;
  ridx <- lift (rmap (aget (ap_rpivot p)) (seq 0 k)) ;;
  cidx <- lift (rmap (aget (ap_cpivot p)) (seq 0 k)) ;;
  Ret (r, ridx, cidx).

(** Library/aca.c:373-403 [copy_lower_aca_amatrix] *)
Definition copy_lower_aca_amatrix (un : bool) (A : mat) (xi : arr nat) (B : mat) : prog K unit :=
  passert (mrows B <=? mrows A) ;;;
  passert (mcols B =? mcols A) ;;;
  for_ 0 (mcols A) (fun j =>
    (if un then mstore B j j f1
     else ii <- lift (aget xi j) ;; passert (ii <? mrows A) ;;; v <- mload A ii j ;; mstore B j j v) ;;;
    for_ (j + 1) (mrows B - (j + 1)) (fun i =>
      ii <- lift (aget xi i) ;; passert (ii <? mrows A) ;;; v <- mload A ii j ;; mstore B i j v)).

(** Library/aca.c:405-433 [copy_upper_aca_amatrix] *)
Definition copy_upper_aca_amatrix (un : bool) (A : mat) (xi : arr nat) (B : mat) : prog K unit :=
  passert (mrows B <=? mrows A) ;;;
  passert (mrows B =? mcols A) ;;;
  for_ 0 (mrows B) (fun j =>
    jj <- lift (aget xi j) ;;
    passert (jj <? mrows A) ;;;
    for_ 0 j (fun i => v <- mload A jj i ;; mstore B i j v) ;;;
    if un then mstore B j j f1 else v <- mload A jj j ;; mstore B j j v).

(** ** Partial pivoting *)

(** The callback [entry] (Library/aca.h:33-51) that evaluates the matrix [E] in the rows
    [ridx + ro] and columns [cidx + co]; if [ntrans] is set it fills the adjoint matrix, as the
    implementations do (e.g. Library/bem3d.c:1227-1233). *)
Definition aca_entry (E : nat -> nat -> K) (ridx : arr nat) (ro : nat) (cidx : arr nat) (co : nat) (ntrans : bool) (n : mat) : prog K unit :=
  for_ 0 (mcols n) (fun j => for_ 0 (mrows n) (fun i =>
    ri <- lift (aget ridx (ro + if ntrans then j else i)) ;;
    ci <- lift (aget cidx (co + if ntrans then i else j)) ;;
    mstore n i j (if ntrans then fconj (E ri ci) else E ri ci))).

(** [a[i + j * ld]] for the array of the matrix [a] and a leading dimension [ld] *)
Definition pa (a : mat) (ld i j : nat) : addr := (mblk a, moff a + (i + j * ld)).

(** The search for the maximal entry in column [j] of [aa] from row [k] on
    (Library/aca.c:222-229 and 249-256). *)
Definition aca_colmax (a : mat) (ld n k j : nat) : prog K nat :=
  v <- pload (pa a ld k j) ;;
  s <- forS (k + 1) (n - (k + 1)) (fun i (s : K * nat) =>
         v <- pload (pa a ld i j) ;; if gt (abssqr v) (fst s) then v <- pload (pa a ld i j) ;; Ret (abssqr v, i) else Ret s) (abssqr v, k) ;;
  Ret (snd s).

(** Subtraction of the current approximation from column [k] of [b] (Library/aca.c:240-248 and
    261-269): [b[j,k] -= b[j,mu] * a[i,mu]] *)
Definition aca_residual (b : mat) (ldb n : nat) (a : mat) (lda i k : nat) : prog K unit :=
  for_ 0 k (fun j => pstore (pa b ldb j k) f0) ;;;
  for_ 0 k (fun mu =>
    x <- pload (pa a lda i mu) ;;
    for_ k (n - k) (fun j => y <- pload (pa b ldb j k) ;; z <- pload (pa b ldb j mu) ;; pstore (pa b ldb j k) (y - z * x)%F)).

(** The sum of the squares of entries of a column, [error += ABSSQR(...)] *)
Definition aca_colnorm (a : mat) (ld n k j : nat) : prog K K :=
  forS k (n - k) (fun i s => v <- pload (pa a ld i j) ;; Ret (s + abssqr v)%F) f0.

Section Partial.
Context (E : nat -> nat -> K) (rows cols : nat) (accur : K).

(** One step (Library/aca.c:211-331); returns the two matrices, the arrays, [starterror] and [error]. *)
Definition partialaca_step (A B : mat) (k : nat) (p : apiv) (starterror : K) : prog K (mat * mat * apiv * K * K) :=
  A <- resizecopy_amatrix A rows (k + 1) ;;
  B <- resizecopy_amatrix B cols (k + 1) ;;
  A_k <- init_sub_amatrix A (rows - k) k 1 k ;;
  B_k <- init_sub_amatrix B (cols - k) k 1 k ;;
  i_k <- (if 0 <? k then aca_colmax A rows rows k (k - 1) else Ret (rows / 2)) ;;
  aca_entry E (ap_rpivot p) i_k (ap_cpivot p) k true B_k ;;;
  conjugate_amatrix B_k ;;;
  aca_residual B cols cols A rows i_k k ;;;
  j_k <- aca_colmax B cols cols k k ;;
  aca_entry E (ap_rpivot p) k (ap_cpivot p) j_k false A_k ;;;
  aca_residual A rows rows B cols j_k k ;;;
  v <- pload (pa B cols j_k k) ;;
  let alpha := (f1 / v)%F in
  for_ 0 rows (fun i => y <- pload (pa A rows i k) ;; pstore (pa A rows i k) (y * alpha)%F) ;;;
  rpivot <- lift (aswap (ap_rpivot p) k i_k) ;;
  rperm <- lift (aset (ap_rperm p) k i_k) ;;
  cpivot <- lift (aswap (ap_cpivot p) k j_k) ;;
  cperm <- lift (aset (ap_cperm p) k j_k) ;;
  for_ 0 (k + 1) (fun i => aca_swapat (pa A rows) k i_k i) ;;;
  for_ 0 (k + 1) (fun j => aca_swapat (pa B cols) k j_k j) ;;;
  start <- (if k + 1 =? 1 then
              n1 <- aca_colnorm A rows rows 0 0 ;; n2 <- aca_colnorm B cols cols 0 0 ;; Ret (f1 / sq (n1 * n2))%F
            else Ret starterror) ;;
  e1 <- aca_colnorm A rows rows k k ;;
  e2 <- aca_colnorm B cols cols k k ;;
  Ret (A, B, Apiv rperm cperm rpivot cpivot, start, (sq (e1 * e2) * start)%F).

(** The loop (Library/aca.c:206-332), [cnt = min(rows, cols) - k] *)
Fixpoint partialaca_loop (cnt k : nat) (A B : mat) (p : apiv) (start error : K) : prog K (mat * mat * nat * apiv) :=
  match cnt with
  | 0 => Ret (A, B, k, p)
  | S cnt =>
      if negb (gt error accur) then Ret (A, B, k, p) else
      s <- partialaca_step A B k p start ;;
      let '(A, B, p, start, error) := s in
      partialaca_loop cnt (k + 1) A B p start error
  end.

(** Library/aca.c:177-371 [decomp_partialaca_rkmatrix] for index arrays [ridx] and [cidx] *)
Definition decomp_partialaca_rkmatrix (ridx cidx : list nat) (r : rkm) : prog K (rkm * list nat * list nat) :=
  let p := Apiv (anew rows) (anew cols) (aof ridx) (aof cidx) in
  q <- partialaca_loop (Nat.min rows cols) 0 (rk_A r) (rk_B r) p f1 f1 ;;
  let '(A, B, k, p) := q in
  aca_unpivot (pa A rows) (pa B cols) k (ap_rperm p) (ap_cperm p) ;;;
  conjugate_amatrix B ;;;
  rpivot <- lift (rmap (aget (ap_rpivot p)) (seq 0 k)) ;;
  cpivot <- lift (rmap (aget (ap_cpivot p)) (seq 0 k)) ;;
  Ret (Rk A B k, rpivot, cpivot).
End Partial.
End Aca.
