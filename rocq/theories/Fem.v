(** * Piecewise linear finite elements (Library/tri2dp1.h, Library/tri2dp1.c)

    Simplifications, valid for the whole file: the scalars are real (the type
    [field] is [real]), rounding is not modelled, unsigned numbers do not wrap
    around, the local arrays of fixed size are tuples or functions of the
    index, a vector is the array of its coefficients and its dimension is the
    length of the array.  Functions of the user are pure functions. *)
From Coq Require Import Arith List Bool.
From Verif Require Import Fld Ord Prog Arr Sparse Tri2d.
Import ListNotations.
Local Open Scope nat_scope.

(** struct _tri2dp1: Library/tri2dp1.h:46-63. *)
Record tri2dp1 (K : Type) := P1 {
  p1_t2 : tri2d K; p1_ndof : nat; p1_nfix : nat;
  p1_dof : arr bool;                (* is the vertex a degree of freedom? *)
  p1_idx : arr nat                  (* number of the degree of freedom or of the fixed vertex *)
}.
Arguments P1 {_}. Arguments p1_t2 {_}. Arguments p1_ndof {_}. Arguments p1_nfix {_}.
Arguments p1_dof {_}. Arguments p1_idx {_}.

Section Fem.
  Context {K : ofops}.
  Implicit Types (m : tri2d K) (dc : tri2dp1 K).

  (** fabs *)
  Definition rabs (x : K) : K := if flt x f0 then fopp x else x.

  (** new_tri2dp1: Library/tri2dp1.c:9-41. *)
  Definition new_tri2dp1 m : res (tri2dp1 K) :=
    let* is_dof := rfor 0 (t2_vertices m) (fun i is_dof =>
      let* b := aget (t2_xb m) i in aset is_dof i (b =? 0)) (anew (t2_vertices m)) in
    let* (idx, ndof, nfix) := rfor 0 (t2_vertices m) (fun i '(idx, ndof, nfix) =>
      let* d := aget is_dof i in
      if (d : bool) then let* idx := aset idx i ndof in Ok (idx, ndof + 1, nfix)
      else let* idx := aset idx i nfix in Ok (idx, ndof, nfix + 1)) (anew (t2_vertices m), 0, 0) in
    Ok (P1 m ndof nfix is_dof idx).

  (** The entry [i] of an array of length three. *)
  Definition at3 {A} (v : A * A * A) (i : nat) : A :=
    match i with 0 => fst (fst v) | 1 => snd (fst v) | _ => snd v end.

  (** [if (is_dof[xt[i]] == flag) { ii = idx2dof[xt[i]]; ... }] *)
  Definition when_dof {S} dc (flag : bool) (v : nat) (body : nat -> S -> res S) (s : S) : res S :=
    let* d := aget (p1_dof dc) v in
    if Bool.eqb d flag then let* ii := aget (p1_idx dc) v in body ii s else Ok s.

  (** build_tri2dp1_sparsematrix: Library/tri2dp1.c:51-88. *)
  Definition build_tri2dp1_sparsematrix dc : res (smat K) :=
    let* sp := new_sparsepattern (p1_ndof dc) (p1_ndof dc) in
    let* sp := rfor 0 (t2_triangles (p1_t2 dc)) (fun d sp =>
      let* xt := getvertices_tri2d (p1_t2 dc) d in
      rfor 0 3 (fun i sp => when_dof dc true (at3 xt i) (fun ii sp =>
        rfor 0 3 (fun j sp => when_dof dc true (at3 xt j) (fun jj sp =>
          addnz_sparsepattern sp ii jj) sp) sp) sp) sp) sp in
    new_zero_sparsematrix sp.

  (** build_tri2dp1_interaction_sparsematrix: Library/tri2dp1.c:90-132. *)
  Definition build_tri2dp1_interaction_sparsematrix dc : res (smat K) :=
    let* sp := new_sparsepattern (p1_ndof dc) (p1_nfix dc) in
    let* sp := rfor 0 (t2_triangles (p1_t2 dc)) (fun d sp =>
      let* xt := getvertices_tri2d (p1_t2 dc) d in
      rfor 0 3 (fun i sp => when_dof dc true (at3 xt i) (fun ii sp =>
        do* rassert (ii <? p1_ndof dc) in
        rfor 0 3 (fun j sp => when_dof dc false (at3 xt j) (fun jj sp =>
          do* rassert (jj <? p1_nfix dc) in
          addnz_sparsepattern sp ii jj) sp) sp) sp) sp) sp in
    new_zero_sparsematrix sp.

  (** build_tri2dp1_prolongation_sparsematrix: Library/tri2dp1.c:134-225.  The
      result [None] is the null pointer that the code returns for an unknown
      type of father. *)
  Definition prolong_with {S} (dfine dcoarse : tri2dp1 K) (rf : tri2dref)
      (add : nat -> nat -> K -> S -> res S) (s : option S) : res (option S) :=
    rfor 0 (t2_vertices (p1_t2 dfine)) (fun i s =>
      match s with
      | None => Ok None
      | Some s =>
        let* d := aget (p1_dof dfine) i in
        if (d : bool) then
          let* ii := aget (p1_idx dfine) i in
          let* xt := aget (r2_xt rf) i in
          match xt with
          | 0 =>
            let* j := aget (r2_xf rf) i in
            let* s := when_dof dcoarse true j (fun jj s => add ii jj f1 s) s in
            Ok (Some s)
          | 1 =>
            let* k := aget (r2_xf rf) i in
            let* e := aget (t2_e (p1_t2 dcoarse)) k in
            let* s := when_dof dcoarse true (fst e) (fun jj s => add ii jj (half K) s) s in
            let* s := when_dof dcoarse true (snd e) (fun jj s => add ii jj (half K) s) s in
            Ok (Some s)
          | _ => Ok None
          end
        else Ok (Some s)
      end) s.
  Definition addentry (a : smat K) (ii jj : nat) (x : K) : res (smat K) :=
    let* (_, a) := addentry_sparsematrix a ii jj x in Ok a.
  Definition build_tri2dp1_prolongation_sparsematrix (dfine dcoarse : tri2dp1 K) (rf : tri2dref)
      : res (option (smat K)) :=
    let* sp := new_sparsepattern (p1_ndof dfine) (p1_ndof dcoarse) in
    let* sp := prolong_with dfine dcoarse rf (fun ii jj _ sp => addnz_sparsepattern sp ii jj) (Some sp) in
    match sp with
    | None => Ok None
    | Some sp =>
      let* a := new_zero_sparsematrix sp in
      prolong_with dfine dcoarse rf (fun ii jj x a => addentry a ii jj x) (Some a)
    end.

  (** The vertices of the triangle [d] in the assembly functions:
      Library/tri2dp1.c:245-252, :323-330 and :437-442. *)
  Definition local_vertices m (d : nat) : res (nat * nat * nat) :=
    let* t := aget (t2_t m) d in
    let* p := aget (t2_e m) (tedge t 0) in
    let* q := aget (t2_e m) (tedge t 1) in
    if (fst q =? fst p) || (fst q =? snd p) then Ok (fst p, snd p, snd q)
    else Ok (fst p, snd p, fst q).

  (** The literals 2.0, 3.0, 6.0, 12.0 and 24.0. *)
  Definition lit2 : K := (1 + 1)%F.
  Definition lit3 : K := (1 + 1 + 1)%F.
  Definition lit6 : K := (lit2 * lit3)%F.
  Definition lit12 : K := (lit2 * lit6)%F.
  Definition lit24 : K := (lit2 * lit12)%F.

  (** The element matrix of the Laplace operator: Library/tri2dp1.c:257-276. *)
  Definition laplace_det (p0 p1 p2 : K * K) : K :=
    ((fst p0 - fst p1) * (snd p2 - snd p1) - (snd p0 - snd p1) * (fst p2 - fst p1))%F.
  Definition laplace_gr (p0 p1 p2 : K * K) (i : nat) : K * K :=
    match i with
    | 0 => (snd p2 - snd p1, fst p1 - fst p2)%F
    | 1 => (snd p0 - snd p2, fst p2 - fst p0)%F
    | _ => (snd p1 - snd p0, fst p0 - fst p1)%F
    end.
  Definition laplace_element (p0 p1 p2 : K * K) (i j : nat) : K :=
    let gr := laplace_gr p0 p1 p2 in
    ((fst (gr i) * fst (gr j) + snd (gr i) * snd (gr j)) / rabs (laplace_det p0 p1 p2) / lit2)%F.

  (** The element matrix of the identity: Library/tri2dp1.c:332-343. *)
  Definition mass_element (p0 p1 p2 : K * K) (i j : nat) : K :=
    let det := ((fst p1 - fst p0) * (snd p2 - snd p0) - (snd p1 - snd p0) * (fst p2 - fst p0))%F in
    if i =? j then (rabs det / lit12)%F else (rabs det / lit24)%F.

  (** assemble_tri2dp1_laplace_sparsematrix (Library/tri2dp1.c:227-306) and
      assemble_tri2dp1_mass_sparsematrix (Library/tri2dp1.c:308-375), which
      differ only in the element matrix.  [Af] may be a null pointer. *)
  Definition assemble_with (element : K * K -> K * K -> K * K -> nat -> nat -> K) dc
      (A : smat K) (Af : option (smat K)) : res (smat K * option (smat K)) :=
    rfor 0 (t2_triangles (p1_t2 dc)) (fun d '(A, Af) =>
      let* xt := local_vertices (p1_t2 dc) d in
      do* rassert (negb (at3 xt 0 =? at3 xt 1) && negb (at3 xt 0 =? at3 xt 2) && negb (at3 xt 1 =? at3 xt 2)) in
      let* p0 := aget (t2_x (p1_t2 dc)) (at3 xt 0) in
      let* p1 := aget (t2_x (p1_t2 dc)) (at3 xt 1) in
      let* p2 := aget (t2_x (p1_t2 dc)) (at3 xt 2) in
      let At := element p0 p1 p2 in
      let* A := rfor 0 3 (fun i A => when_dof dc true (at3 xt i) (fun ii A =>
        rfor 0 3 (fun j A => when_dof dc true (at3 xt j) (fun jj A =>
          addentry A ii jj (At i j)) A) A) A) A in
      let* Af := match Af with
        | None => Ok None
        | Some Af =>
          let* Af := rfor 0 3 (fun i Af => when_dof dc true (at3 xt i) (fun ii Af =>
            do* rassert (ii <? p1_ndof dc) in
            rfor 0 3 (fun j Af => when_dof dc false (at3 xt j) (fun jj Af =>
              do* rassert (jj <? p1_nfix dc) in
              addentry Af ii jj (At i j)) Af) Af) Af) Af in
          Ok (Some Af)
        end in
      Ok (A, Af)) (A, Af).
  Definition assemble_tri2dp1_laplace_sparsematrix := assemble_with laplace_element.
  Definition assemble_tri2dp1_mass_sparsematrix := assemble_with mass_element.

  (** assemble_tri2dp1_dirichlet_avector: Library/tri2dp1.c:377-400.  [d] may
      be a null pointer. *)
  Definition assemble_tri2dp1_dirichlet_avector dc (d : option (K * K -> K)) (dv : arr K) : res (arr K) :=
    do* rassert (length dv =? p1_nfix dc) in
    rfor 0 (t2_vertices (p1_t2 dc)) (fun i dv => when_dof dc false i (fun ii dv =>
      do* rassert (ii <? p1_nfix dc) in
      let* x := aget (t2_x (p1_t2 dc)) i in
      aset dv ii (match d with Some d => d x | None => f0 end)) dv) dv.

  (** assemble_tri2dp1_functional_avector: Library/tri2dp1.c:402-478.
      [clear_avector] is the first loop. *)
  Definition assemble_tri2dp1_functional_avector dc (f : K * K -> K) (fv : arr K) : res (arr K) :=
    do* rassert (length fv =? p1_ndof dc) in
    let* fv := rfor 0 (length fv) (fun i fv => aset fv i f0) fv in
    rfor 0 (t2_triangles (p1_t2 dc)) (fun d fv =>
      let* v := local_vertices (p1_t2 dc) d in
      let* x0 := aget (t2_x (p1_t2 dc)) (at3 v 0) in
      let* x1 := aget (t2_x (p1_t2 dc)) (at3 v 1) in
      let* x2 := aget (t2_x (p1_t2 dc)) (at3 v 2) in
      let xd00 := (fst x1 - fst x0)%F in let xd01 := (snd x1 - snd x0)%F in
      let xd10 := (fst x2 - fst x0)%F in let xd11 := (snd x2 - snd x0)%F in
      let vol := rabs (xd00 * xd11 - xd01 * xd10)%F in
      let f01 := f (mid x0 x1) in
      let f02 := f (mid x0 x2) in
      let f12 := f (mid x1 x2) in
      let upd (k : nat) (y : K) (fv : arr K) := when_dof dc true (at3 v k) (fun ii fv =>
        do* rassert (ii <? p1_ndof dc) in
        let* c := aget fv ii in
        aset fv ii (c + half K * y * vol / lit6)%F) fv in
      let* fv := upd 0 (f01 + f02)%F fv in
      let* fv := upd 1 (f01 + f12)%F fv in
      upd 2 (f02 + f12)%F fv) fv.

  (** normmax_tri2dp1: Library/tri2dp1.c:480-508. *)
  Definition normmax_tri2dp1 dc (u : K * K -> K) (xs : arr K) : res K :=
    do* rassert (length xs =? p1_ndof dc) in
    rfor 0 (t2_vertices (p1_t2 dc)) (fun i norm => when_dof dc true i (fun ii norm =>
      do* rassert (ii <? p1_ndof dc) in
      let* x := aget (t2_x (p1_t2 dc)) i in
      let* c := aget xs ii in
      let val := rabs (u x - c)%F in
      Ok (if flt norm val then val else norm)) norm) f0.
End Fem.
