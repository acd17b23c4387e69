(** * Piecewise linear finite elements: error norm and geometry
    (Library/tri2dp1.c)

    The simplifications are those of Fem.v. *)
From Coq Require Import Arith List Bool.
From Verif Require Import Fld Ord Prog Arr Tri2d Cluster Fem.
Import ListNotations.
Local Open Scope nat_scope.

Section Fem2.
  Context {K : ofops}.
  Implicit Types dc : tri2dp1 K.

  (** norml2_tri2dp1, one end of an edge: Library/tri2dp1.c:553-568 and
      :574-590.  [b] and [bf] may be null pointers. *)
  Definition add_end dc (b bf : option (arr K)) (i : nat) (val : K) : res K :=
    let* d := aget (p1_dof dc) i in
    match (if (d : bool) then b else bf) with
    | None => Ok val
    | Some b =>
      let* ii := aget (p1_idx dc) i in
      do* rassert (ii <? if d then p1_ndof dc else p1_nfix dc) in
      let* c := aget b ii in
      Ok (val + half K * c)%F
    end.
  Definition has_dim (b : option (arr K)) (n : nat) : bool :=
    match b with None => true | Some b => length b =? n end.

  (** norml2_tri2dp1: Library/tri2dp1.c:508-607.  [sq] is the square root, [f]
      may be a null pointer. *)
  Definition norml2_tri2dp1 (sq : K -> K) dc (f : option (K * K -> K)) (b bf : option (arr K)) : res K :=
    let m := p1_t2 dc in
    do* rassert (has_dim b (p1_ndof dc)) in
    do* rassert (has_dim bf (p1_nfix dc)) in
    let* norm := rfor 0 (t2_triangles m) (fun k norm =>
      let* vl := getvertices_tri2d m k in
      let* x0 := aget (t2_x m) (at3 vl 0) in
      let* x1 := aget (t2_x m) (at3 vl 1) in
      let* x2 := aget (t2_x m) (at3 vl 2) in
      let area := (rabs ((fst x1 - fst x0) * (snd x2 - snd x0) - (snd x1 - snd x0) * (fst x2 - fst x0)) * half K)%F in
      let* t := aget (t2_t m) k in
      let* tnorm := rfor 0 3 (fun j tnorm =>
        let* e := aget (t2_e m) (tedge t j) in
        let* val := add_end dc b bf (fst e) f0 in
        let* p := aget (t2_x m) (fst e) in
        let* val := add_end dc b bf (snd e) val in
        let* q := aget (t2_x m) (snd e) in
        let xm := (half K * fst p + half K * fst q, half K * snd p + half K * snd q)%F in
        let val := match f with Some f => (val - f xm)%F | None => val end in
        Ok (tnorm + val * val)%F) f0 in
      Ok (norm + tnorm * area / lit3)%F) f0 in
    Ok (sq norm).

  (** _h2_realmin3 and _h2_realmax3: Library/basic.h:436-438 and :455-457. *)
  Definition fmin3 (x y z : K) : K :=
    if flt x y then (if flt z x then z else x) else (if flt z y then z else y).
  Definition fmax3 (x y z : K) : K :=
    if flt x y then (if flt y z then z else y) else (if flt x z then z else x).

  (** The two components of a row. *)
  Definition row2 (p : K * K) : arr K := aof [fst p; snd p].

  (** build_tri2dp1_clustergeometry: Library/tri2dp1.c:610-669.
      [new_clustergeometry] (Library/clustergeometry.c:20-53) allocates the
      arrays and sets the weights to one.  Both components of a row are
      assigned at once. *)
  Definition build_tri2dp1_clustergeometry dc (idx : arr nat) : res (cgeom K * arr nat) :=
    let m := p1_t2 dc in
    let n := p1_ndof dc in
    let* (x, s1, s2, idx) := rfor 0 (t2_vertices m) (fun i s => when_dof dc true i (fun c '(x, s1, s2, idx) =>
      let* p := aget (t2_x m) i in
      let* x := aset x c (row2 p) in
      let* s1 := aset s1 c (row2 p) in
      let* s2 := aset s2 c (row2 p) in
      let* idx := aset idx c c in
      Ok (x, s1, s2, idx)) s) (anew n, anew n, anew n, idx) in
    let* (s1, s2) := rfor 0 (t2_triangles m) (fun i s =>
      let* v := getvertices_tri2d m i in
      let* p0 := aget (t2_x m) (at3 v 0) in
      let* p1 := aget (t2_x m) (at3 v 1) in
      let* p2 := aget (t2_x m) (at3 v 2) in
      let mn := (fmin3 (fst p0) (fst p1) (fst p2), fmin3 (snd p0) (snd p1) (snd p2)) in
      let mx := (fmax3 (fst p0) (fst p1) (fst p2), fmax3 (snd p0) (snd p1) (snd p2)) in
      rfor 0 3 (fun j s => when_dof dc true (at3 v j) (fun k '(s1, s2) =>
        let* a0 := aget2 s1 k 0 in
        let* a1 := aget2 s1 k 1 in
        let* s1 := aset s1 k (row2 (fmin a0 (fst mn), fmin a1 (snd mn))) in
        let* b0 := aget2 s2 k 0 in
        let* b1 := aget2 s2 k 1 in
        let* s2 := aset s2 k (row2 (fmax b0 (fst mx), fmax b1 (snd mx))) in
        Ok (s1, s2)) s) s) (s1, s2) in
    let cf := CGeom 2 n x s1 s2 (aof (repeat f1 n)) (anew 2) (anew 2) in
    let* cf := update_point_bbox cf idx 0 n in
    Ok (cf, idx).
End Fem2.
