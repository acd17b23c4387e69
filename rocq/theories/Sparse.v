(** * Model of sparse patterns and sparse matrices

    /repo/Library/sparsepattern.c and /repo/Library/sparsematrix.c. *)
From Coq Require Import Arith Lia List Bool.
From Verif Require Import Fld Prog View Arr.
Import ListNotations.

(** ** Patterns *)

(** struct _patentry, Library/sparsepattern.h:57-65: row, column (the successor pointer
    is the list structure). *)
Notation patentry := (nat * nat)%type.

(** struct _sparsepattern, Library/sparsepattern.h:43-51: numbers of rows and columns and
    an array of linked lists.  Simplification: the list cells are values, so
    that allocating and freeing a single cell is not visible. *)
Record spat := SPat { prows : nat; pcols : nat; prow : arr (list patentry) }.

(** new_sparsepattern, Library/sparsepattern.c:50-69 *)
Definition new_sparsepattern (rows cols : nat) : res spat :=
  do* rassert (0 <? rows) in
  do* rassert (0 <? cols) in
  let* row := rfor 0 rows (fun i row => aset row i []) (anew rows) in
  Ok (SPat rows cols row).

(** clear_sparsepattern, Library/sparsepattern.c:90-108 *)
Definition clear_sparsepattern (sp : spat) : res spat :=
  let* row := rfor 0 (prows sp) (fun i row =>
      let* l := aget row i in
      match l with [] => Ok row | _ :: _ => aset row i [] end) (prow sp) in
  Ok (SPat (prows sp) (pcols sp) row).

(** The search loop of addnz_sparsepattern: is there an entry with column [col]? *)
Fixpoint find_entry (l : list patentry) (col : nat) : bool :=
  match l with
  | [] => false
  | e :: l' => if snd e =? col then true else find_entry l' col
  end.

(** addnz_sparsepattern, Library/sparsepattern.c:116-131 *)
Definition addnz_sparsepattern (sp : spat) (row col : nat) : res spat :=
  do* rassert (row <? prows sp) in
  do* rassert (col <? pcols sp) in
  let* l := aget (prow sp) row in
  if find_entry l col then Ok sp
  else let* row' := aset (prow sp) row ((row, col) :: l) in
       Ok (SPat (prows sp) (pcols sp) row').

(** ** Matrices *)
Section Sparse.
Context {K : fops}.

(** struct _sparsematrix, Library/sparsematrix.h:42-58: row starts, column indices and
    coefficients (compressed row storage).  The three arrays belong to the
    matrix alone, so they are values. *)
Record smat := SMat { srows : nat; scols : nat; snz : nat;
                      srow : arr nat; scol : arr nat; scoeff : arr K }.

(** new_raw_sparsematrix, Library/sparsematrix.c:16-37 *)
Definition new_raw_sparsematrix (rows cols nz : nat) : res smat :=
  let* row := rfor 0 (rows + 1) (fun i row => aset row i 0) (anew (rows + 1)) in
  Ok (SMat rows cols nz row (anew nz) (anew nz)).

(** new_identity_sparsematrix, Library/sparsematrix.c:39-67 *)
Definition new_identity_sparsematrix (rows cols : nat) : res smat :=
  let n := Nat.min rows cols in
  let* (row, col, coeff) :=
    rfor 0 n (fun i '(row, col, coeff) =>
      let* row := aset row i i in
      let* col := aset col i i in
      let* coeff := aset coeff i f1 in
      Ok (row, col, coeff)) (anew (rows + 1), anew n, anew n) in
  let* row := rfor n (rows + 1 - n) (fun i row => aset row i n) row in
  Ok (SMat rows cols n row col coeff).

(** The inner search loops of addentry, setentry and sort (sparsematrix.c:145,
    :162 and :216): the first index in [i, i+n) whose column is [c], or [i+n]. *)
Fixpoint find_col (col : arr nat) (c i n : nat) : res nat :=
  match n with
  | O => Ok i
  | S n' => let* ci := aget col i in
            if ci =? c then Ok i else find_col col c (S i) n'
  end.

(** swap, Library/sparsematrix.c:190-203 *)
Definition swap_cc (i1 i2 : nat) (col : arr nat) (coeff : arr K) : res (arr nat * arr K) :=
  let* hcol := aget col i1 in
  let* c2 := aget col i2 in
  let* col := aset col i1 c2 in
  let* col := aset col i2 hcol in
  let* hcoeff := aget coeff i1 in
  let* f2 := aget coeff i2 in
  let* coeff := aset coeff i1 f2 in
  let* coeff := aset coeff i2 hcoeff in
  Ok (col, coeff).

(** sort_sparsematrix, Library/sparsematrix.c:205-220 *)
Definition sort_sparsematrix (a : smat) : res smat :=
  let* (col, coeff) :=
    rfor 0 (srows a) (fun i '(col, coeff) =>
      let* k := aget (srow a) i in
      let* e := aget (srow a) (i + 1) in
      let* j := find_col col i k (e - k) in
      if j <? e then swap_cc k j col coeff else Ok (col, coeff)) (scol a, scoeff a) in
  Ok (SMat (srows a) (scols a) (snz a) (srow a) col coeff).

(** new_zero_sparsematrix, Library/sparsematrix.c:69-116 *)
Definition new_zero_sparsematrix (sp : spat) : res smat :=
  let* nz := rfor 0 (prows sp) (fun i nz =>
      let* l := aget (prow sp) i in
      rfold (fun _ nz => Ok (nz + 1)) l nz) 0 in
  let* A := new_raw_sparsematrix (prows sp) (pcols sp) nz in
  let* (j, row, col, coeff) :=
    rfor 0 (prows sp) (fun i '(j, row, col, coeff) =>
      let* row := aset row i j in
      let* l := aget (prow sp) i in
      let* (j, col, coeff) :=
        rfold (fun (e : patentry) '(j, col, coeff) =>
          do* rassert (fst e =? i) in
          let* col := aset col j (snd e) in
          let* coeff := aset coeff j f0 in
          Ok (j + 1, col, coeff)) l (j, col, coeff) in
      Ok (j, row, col, coeff)) (0, srow A, scol A, scoeff A) in
  do* rassert (j =? nz) in
  let* row := aset row (prows sp) j in
  sort_sparsematrix (SMat (prows sp) (pcols sp) nz row col coeff).

(** addentry_sparsematrix, Library/sparsematrix.c:136-151 *)
Definition addentry_sparsematrix (a : smat) (row col : nat) (x : K) : res (K * smat) :=
  do* rassert (row <? srows a) in
  do* rassert (col <? scols a) in
  let* s := aget (srow a) row in
  let* e := aget (srow a) (row + 1) in
  let* i := find_col (scol a) col s (e - s) in
  do* rassert (i <? e) in
  let* ci := aget (scol a) i in
  do* rassert (ci =? col) in
  let* v := aget (scoeff a) i in
  let* coeff := aset (scoeff a) i (fadd v x) in
  Ok (fadd v x, SMat (srows a) (scols a) (snz a) (srow a) (scol a) coeff).

(** setentry_sparsematrix, Library/sparsematrix.c:153-167 *)
Definition setentry_sparsematrix (a : smat) (row col : nat) (x : K) : res smat :=
  do* rassert (row <? srows a) in
  do* rassert (col <? scols a) in
  let* s := aget (srow a) row in
  let* e := aget (srow a) (row + 1) in
  let* i := find_col (scol a) col s (e - s) in
  do* rassert (i <? e) in
  let* ci := aget (scol a) i in
  do* rassert (ci =? col) in
  let* coeff := aset (scoeff a) i x in
  Ok (SMat (srows a) (scols a) (snz a) (srow a) (scol a) coeff).

(** clear_sparsematrix, Library/sparsematrix.c:222-229 *)
Definition clear_sparsematrix (a : smat) : res smat :=
  let* coeff := rfor 0 (snz a) (fun i coeff => aset coeff i f0) (scoeff a) in
  Ok (SMat (srows a) (scols a) (snz a) (srow a) (scol a) coeff).

(** addeval_sparsematrix_avector, Library/sparsematrix.c:323-356 *)
Definition addeval_sparsematrix_avector (alpha : K) (a : smat) (x y : vec) : prog K unit :=
  passert (srows a =? vdim y) ;;;
  passert (scols a =? vdim x) ;;;
  for_ 0 (srows a) (fun i =>
    s <- lift (aget (srow a) i) ;;
    e <- lift (aget (srow a) (i + 1)) ;;
    r <- forS s (e - s) (fun j r =>
           c <- lift (aget (scoeff a) j) ;;
           cj <- lift (aget (scol a) j) ;;
           xv <- vload x cj ;;
           Ret (fadd r (fmul c xv))) f0 ;;
    yv <- vload y i ;;
    vstore y i (fadd yv (fmul alpha r))).

(** addevaltrans_sparsematrix_avector, Library/sparsematrix.c:358-390 *)
Definition addevaltrans_sparsematrix_avector (alpha : K) (a : smat) (x y : vec) : prog K unit :=
  passert (srows a =? vdim x) ;;;
  passert (scols a =? vdim y) ;;;
  for_ 0 (srows a) (fun i =>
    xv <- vload x i ;;
    let val := fmul alpha xv in
    s <- lift (aget (srow a) i) ;;
    e <- lift (aget (srow a) (i + 1)) ;;
    for_ s (e - s) (fun j =>
      cj <- lift (aget (scol a) j) ;;
      c <- lift (aget (scoeff a) j) ;;
      yv <- vload y cj ;;
      vstore y cj (fadd yv (fmul c val)))).

(** mvm_sparsematrix_avector, Library/sparsematrix.c:392-402 *)
Definition mvm_sparsematrix_avector (alpha : K) (trans : bool) (a : smat) (x y : vec) : prog K unit :=
  if trans then addevaltrans_sparsematrix_avector alpha a x y
  else addeval_sparsematrix_avector alpha a x y.

(** add_sparsematrix_amatrix, Library/sparsematrix.c:419-459  Simplification: the index [i + j * ldb], which
    the code computes in [uint], does not wrap here (the leading dimension times
    the number of columns is assumed to be below 2^32). *)
Definition add_sparsematrix_amatrix (alpha : K) (atrans : bool) (a : smat) (b : mat) : prog K unit :=
  if 0 <? snz a then
    if atrans then
      passert (mrows b =? scols a) ;;;
      passert (mcols b =? srows a) ;;;
      for_ 0 (srows a) (fun i =>
        s <- lift (aget (srow a) i) ;;
        e <- lift (aget (srow a) (i + 1)) ;;
        for_ s (e - s) (fun k =>
          j <- lift (aget (scol a) k) ;;
          c <- lift (aget (scoeff a) k) ;;
          v <- mload b j i ;;
          mstore b j i (fadd v (fmul alpha c))))
    else
      passert (mrows b =? srows a) ;;;
      passert (mcols b =? scols a) ;;;
      for_ 0 (srows a) (fun i =>
        s <- lift (aget (srow a) i) ;;
        e <- lift (aget (srow a) (i + 1)) ;;
        for_ s (e - s) (fun k =>
          j <- lift (aget (scol a) k) ;;
          c <- lift (aget (scoeff a) k) ;;
          v <- mload b i j ;;
          mstore b i j (fadd v (fmul alpha c))))
  else Ret tt.

End Sparse.
Arguments smat : clear implicits.
