(** * Triangular meshes in the plane (Library/tri2d.h, Library/tri2d.c)

    A mesh is a structure of counts and index arrays.  Simplifications, valid
    for the whole file: the entry [x[i]] of an array of pairs (or triples) is
    one cell, written as a whole; unsigned numbers do not wrap around. *)
From Coq Require Import Arith List Bool.
From Verif Require Import Fld Prog Arr.
Import ListNotations.

(** struct _tri2d: Library/tri2d.h:56-80. *)
Record tri2d (K : Type) := T2 {
  t2_vertices : nat; t2_edges : nat; t2_triangles : nat;
  t2_x : arr (K * K);               (* coordinates of the vertices *)
  t2_e : arr (nat * nat);           (* start and end vertices of the edges *)
  t2_t : arr (nat * nat * nat);     (* edges of the triangles *)
  t2_xb : arr nat;                  (* boundary flags of the vertices *)
  t2_eb : arr nat                   (* boundary flags of the edges *)
}.
Arguments T2 {_}. Arguments t2_vertices {_}. Arguments t2_edges {_}.
Arguments t2_triangles {_}. Arguments t2_x {_}. Arguments t2_e {_}.
Arguments t2_t {_}. Arguments t2_xb {_}. Arguments t2_eb {_}.

(** struct _tri2dref: Library/tri2d.h:203-216. *)
Record tri2dref := R2 {
  r2_xf : arr nat; r2_xt : arr nat; r2_ef : arr nat; r2_et : arr nat; r2_tf : arr nat
}.

(** new_tri2d: Library/tri2d.c:17-35. *)
Definition new_tri2d {K} (vertices edges triangles : nat) : tri2d K :=
  T2 vertices edges triangles (anew vertices) (anew edges) (anew triangles)
     (anew vertices) (anew edges).

(** The literal 0.5. *)
Definition half (K : fops) : K := (1 / (1 + 1))%F.

Section Tri2d.
  Context {K : fops}.

  (** new_unitsquare_tri2d: Library/tri2d.c:48-92.  The assignments of the single
      entries are collected into one literal per array. *)
  Definition new_unitsquare_tri2d : tri2d K :=
    let z := @f0 K in let o := @f1 K in let m1 := @fopp K o in
    let h := half K in let mh := @fopp K h in
    T2 4 5 2
     (aof [
     (m1, m1); (o, m1); (m1, o); (o, o)])
     (aof [
     (0, 1); (0, 2); (1, 2); (1, 3); (2, 3)])
     (aof [
     (0, 1, 2); (2, 3, 4)])
     (aof [
     1; 1; 1; 1])
     (aof [
     1; 1; 0; 1; 1]).

  (** new_unitcircle_tri2d: Library/tri2d.c:94-153.  The assignments of the single
      entries are collected into one literal per array. *)
  Definition new_unitcircle_tri2d : tri2d K :=
    let z := @f0 K in let o := @f1 K in let m1 := @fopp K o in
    let h := half K in let mh := @fopp K h in
    T2 5 8 4
     (aof [
     (z, z); (m1, z); (z, o); (o, z); (z, m1)])
     (aof [
     (1, 2); (2, 3); (3, 4); (4, 1); (1, 0); (2, 0); (3, 0); (4, 0)])
     (aof [
     (0, 5, 4); (5, 1, 6); (7, 6, 2); (3, 4, 7)])
     (aof [
     0; 1; 1; 1; 1])
     (aof [
     1; 1; 1; 1; 0; 0; 0; 0]).

  (** new_lshape_tri2d: Library/tri2d.c:155-237.  The assignments of the single
      entries are collected into one literal per array. *)
  Definition new_lshape_tri2d : tri2d K :=
    let z := @f0 K in let o := @f1 K in let m1 := @fopp K o in
    let h := half K in let mh := @fopp K h in
    T2 8 13 6
     (aof [
     (m1, m1); (z, m1); (o, m1); (m1, z); (z, z); (o, z); (m1, o); (z, o)])
     (aof [
     (0, 1); (1, 2); (0, 3); (1, 3); (1, 4); (2, 4); (2, 5); (3, 4); (4, 5); (3, 6); (4, 6);
     (4, 7); (6, 7)])
     (aof [
     (3, 0, 2); (3, 4, 7); (5, 4, 1); (5, 8, 6); (10, 9, 7); (10, 12, 11)])
     (aof [
     1; 1; 1; 1; 1; 1; 1; 1])
     (aof [
     1; 1; 1; 0; 0; 0; 1; 0; 1; 1; 0; 1; 1]).

  (** new_ushape_tri2d: Library/tri2d.c:239-481.  The assignments of the single
      entries are collected into one literal per array. *)
  Definition new_ushape_tri2d : tri2d K :=
    let z := @f0 K in let o := @f1 K in let m1 := @fopp K o in
    let h := half K in let mh := @fopp K h in
    T2 23 46 24
     (aof [
     (m1, m1); (mh, m1); (z, m1); (h, m1); (o, m1); (m1, mh); (mh, mh); (z, mh); (h, mh);
     (o, mh); (m1, z); (mh, z); (z, z); (h, z); (o, z); (m1, h); (mh, h); (h, h); (o, h);
     (m1, o); (mh, o); (h, o); (o, o)])
     (aof [
     (0, 1); (1, 2); (2, 3); (3, 4); (5, 0); (5, 1); (6, 1); (6, 2); (7, 2); (7, 3); (8, 3);
     (8, 4); (9, 4); (5, 6); (6, 7); (7, 8); (8, 9); (10, 5); (10, 6); (11, 6); (11, 7);
     (12, 7); (12, 8); (13, 8); (13, 9); (14, 9); (10, 11); (11, 12); (12, 13); (13, 14);
     (15, 10); (15, 11); (16, 11); (17, 13); (17, 14); (18, 14); (15, 16); (17, 18);
     (19, 15); (19, 16); (20, 16); (21, 17); (21, 18); (22, 18); (19, 20); (21, 22)])
     (aof [
     (0, 4, 5); (5, 6, 13); (6, 1, 7); (7, 8, 14); (8, 2, 9); (9, 10, 15); (10, 3, 11);
     (11, 12, 16); (17, 13, 18); (18, 19, 26); (19, 14, 20); (20, 21, 27); (21, 15, 22);
     (22, 23, 28); (23, 16, 24); (24, 25, 29); (30, 26, 31); (31, 32, 36); (33, 29, 34);
     (34, 35, 37); (38, 36, 39); (39, 40, 44); (41, 37, 42); (42, 43, 45)])
     (aof [
     1; 1; 1; 1; 1; 1; 0; 0; 0; 1; 1; 1; 1; 1; 1; 1; 1; 1; 1; 1; 1; 1; 1])
     (aof [
     1; 1; 1; 1; 1; 0; 0; 0; 0; 0; 0; 0; 1; 0; 0; 0; 0; 1; 0; 0; 0; 0; 0; 0; 0; 1; 0; 1; 1;
     0; 1; 0; 1; 1; 0; 1; 0; 0; 1; 0; 1; 1; 0; 1; 1; 1]).

  (** The vertex list of one triangle in check_tri2d: [v] is appended to the
      list unless it is already there (Library/tri2d.c:576-586). *)
  Definition vinsert (v : nat) (l : list nat) : list nat :=
    if existsb (Nat.eqb v) l then l else l ++ [v].

  Definition b2n (b : bool) : nat := if b then 1 else 0.

  (** The edge [k] of a triangle ([t[i][k]], [k < 3]). *)
  Definition tedge (t : nat * nat * nat) (k : nat) : nat :=
    match k with 0 => fst (fst t) | 1 => snd (fst t) | _ => snd t end.

  (** check_tri2d: Library/tri2d.c:525-624.  The number of errors, which the
      code prints (and which the header describes as the return value), is
      the result; the messages are not modelled. *)
  Definition check_edges (m : tri2d K) : res nat :=
    rfor 0 (t2_edges m) (fun i errors =>
      let* e := aget (t2_e m) i in
      Ok (errors + b2n (t2_vertices m <=? fst e) + b2n (t2_vertices m <=? snd e))) 0.
  Definition check_boundary (m : tri2d K) (errors : nat) : res nat :=
    rfor 0 (t2_edges m) (fun i errors =>
      let* b := aget (t2_eb m) i in
      if b =? 1 then
        let* e := aget (t2_e m) i in
        let* b0 := aget (t2_xb m) (fst e) in
        let* b1 := aget (t2_xb m) (snd e) in
        Ok (errors + b2n (b0 =? 0) + b2n (b1 =? 0))
      else Ok errors) errors.
  Definition check_triangles (m : tri2d K) (errors : nat) : res nat :=
    rfor 0 (t2_triangles m) (fun i errors =>
      let* t := aget (t2_t m) i in
      let* (errors, v) := rfor 0 3 (fun k '(errors, v) =>
        if t2_edges m <=? tedge t k then Ok (errors + 1, v)
        else
          let* e := aget (t2_e m) (tedge t k) in
          Ok (errors, vinsert (snd e) (vinsert (fst e) v))) (errors, []) in
      Ok (errors + b2n (negb (length v =? 3)))) errors.
  Definition ainc (a : arr nat) (i : nat) : res (arr nat) :=
    let* n := aget a i in aset a i (n + 1).
  Definition count_neighbours (m : tri2d K) : res (arr nat) :=
    let* en := rfor 0 (t2_edges m) (fun i en => aset en i 0) (anew (t2_edges m)) in
    rfor 0 (t2_triangles m) (fun i en =>
      let* t := aget (t2_t m) i in
      let* en := ainc en (tedge t 0) in
      let* en := ainc en (tedge t 1) in
      ainc en (tedge t 2)) en.
  Definition check_neighbours (m : tri2d K) (errors : nat) : res nat :=
    let* en := count_neighbours m in
    rfor 0 (t2_edges m) (fun i errors =>
      let* b := aget (t2_eb m) i in
      let* n := aget en i in
      Ok (errors + b2n ((b =? 0) && negb (n =? 2)) + b2n ((b =? 1) && negb (n =? 1)))) errors.
  Definition check_tri2d (m : tri2d K) : res nat :=
    let* errors := check_edges m in
    let* errors := check_boundary m errors in
    let* errors := check_triangles m errors in
    check_neighbours m errors.

  (** common_vertex_global (with common_vertex inlined):
      Library/tri2d.c:632-646. *)
  Definition common_vertex_global (e : arr (nat * nat)) (e1 e2 : nat) : res nat :=
    let* p := aget e e1 in
    let* q := aget e e2 in
    if (fst p =? fst q) || (fst p =? snd q) then Ok (fst p)
    else
      do* rassert ((snd p =? fst q) || (snd p =? snd q)) in
      Ok (snd p).

  (** getvertices_tri2d: Library/tri2d.c:650-659. *)
  Definition getvertices_tri2d (m : tri2d K) (tn : nat) : res (nat * nat * nat) :=
    let* t := aget (t2_t m) tn in
    let* v2 := common_vertex_global (t2_e m) (tedge t 0) (tedge t 1) in
    let* v0 := common_vertex_global (t2_e m) (tedge t 1) (tedge t 2) in
    let* v1 := common_vertex_global (t2_e m) (tedge t 2) (tedge t 0) in
    Ok (v0, v1, v2).

  (** intersecting_edges: Library/tri2d.c:937-966. *)
  Definition share (p q : nat * nat) : bool :=
    (fst p =? fst q) || (fst p =? snd q) || (snd p =? fst q) || (snd p =? snd q).
  Definition intersecting_edges (e : arr (nat * nat)) (e1 e2 : nat) : res (nat * nat) :=
    let* p := aget e e1 in
    let* q := aget e e2 in
    if share p q then Ok (e1, e2)
    else
      let* q' := aget e (e2 + 1) in
      if share p q' then Ok (e1, e2 + 1)
      else
        let* p' := aget e (e1 + 1) in
        if share p' q then Ok (e1 + 1, e2)
        else
          do* rassert (share p' q') in
          Ok (e1 + 1, e2 + 1).

  (** Midpoint of two vertices (Library/tri2d.c:1011-1012). *)
  Definition mid (p q : K * K) : K * K :=
    ((half K * (fst p + fst q))%F, (half K * (snd p + snd q))%F).

  (** [if (t2r) a[i] = x] *)
  Definition setif (t2r : bool) (a : arr nat) (i x : nat) : res (arr nat) :=
    if t2r then aset a i x else Ok a.

  (** refine_tri2d, vertices: Library/tri2d.c:995-1020. *)
  Definition vstate := (arr (K * K) * arr nat * arr nat * arr nat * nat)%type.
  Definition put_vertex (t2r : bool) (s : vstate) (p : K * K) (b f t : nat) : res vstate :=
    let '(x, xb, xf, xt, i) := s in
    let* x := aset x i p in
    let* xb := aset xb i b in
    let* xf := setif t2r xf i f in
    let* xt := setif t2r xt i t in
    Ok (x, xb, xf, xt, i + 1).
  Definition refine_vertices (t2r : bool) (m : tri2d K) (s : vstate) : res vstate :=
    rfor 0 (t2_vertices m) (fun j s =>
      let* p := aget (t2_x m) j in
      let* b := aget (t2_xb m) j in
      put_vertex t2r s p b j 0) s.
  Definition refine_midpoints (t2r : bool) (m : tri2d K) (s : vstate) : res vstate :=
    rfor 0 (t2_edges m) (fun j s =>
      let* e := aget (t2_e m) j in
      let* p := aget (t2_x m) (fst e) in
      let* q := aget (t2_x m) (snd e) in
      let* b := aget (t2_eb m) j in
      put_vertex t2r s (mid p q) b j 1) s.

  (** refine_tri2d, edges: Library/tri2d.c:1022-1073. *)
  Definition estate := (arr (nat * nat) * arr nat * arr nat * arr nat * nat)%type.
  Definition put_edge (t2r : bool) (s : estate) (p : nat * nat) (b f t : nat) : res estate :=
    let '(e, eb, ef, et, i) := s in
    let* e := aset e i p in
    let* eb := aset eb i b in
    let* ef := setif t2r ef i f in
    let* et := setif t2r et i t in
    Ok (e, eb, ef, et, i + 1).
  Definition refine_halves (t2r : bool) (m : tri2d K) (edge_vertices : nat) (s : estate) : res estate :=
    rfor 0 (t2_edges m) (fun j s =>
      let* e := aget (t2_e m) j in
      let* b := aget (t2_eb m) j in
      let* s := put_edge t2r s (fst e, edge_vertices + j) b j 1 in
      put_edge t2r s (edge_vertices + j, snd e) b j 1) s.
  Definition refine_inner (t2r : bool) (m : tri2d K) (edge_vertices : nat) (s : estate) : res estate :=
    rfor 0 (t2_triangles m) (fun j s =>
      let* t := aget (t2_t m) j in
      let* s := put_edge t2r s (edge_vertices + tedge t 1, edge_vertices + tedge t 2) 0 j 2 in
      let* s := put_edge t2r s (edge_vertices + tedge t 2, edge_vertices + tedge t 0) 0 j 2 in
      put_edge t2r s (edge_vertices + tedge t 0, edge_vertices + tedge t 1) 0 j 2) s.

  (** refine_tri2d, triangles: Library/tri2d.c:1075-1109.  The code stores the
      results of intersecting_edges directly into the new triangle. *)
  Definition tstate := (arr (nat * nat * nat) * arr nat * nat)%type.
  Definition put_triangle (t2r : bool) (s : tstate) (p : nat * nat * nat) (f : nat) : res tstate :=
    let '(t, tf, i) := s in
    let* t := aset t i p in
    let* tf := setif t2r tf i f in
    Ok (t, tf, i + 1).
  Definition refine_triangles (t2r : bool) (m : tri2d K) (re : arr (nat * nat))
      (triangle_edges : nat) (s : tstate) : res tstate :=
    rfor 0 (t2_triangles m) (fun j s =>
      let* t := aget (t2_t m) j in
      let* (t1, t2) := intersecting_edges re (2 * tedge t 1) (2 * tedge t 2) in
      let* s := put_triangle t2r s (triangle_edges + 3 * j, t1, t2) j in
      let* (t0, t2) := intersecting_edges re (2 * tedge t 0) (2 * tedge t 2) in
      let* s := put_triangle t2r s (t0, triangle_edges + 3 * j + 1, t2) j in
      let* (t0, t1) := intersecting_edges re (2 * tedge t 0) (2 * tedge t 1) in
      let* s := put_triangle t2r s (t0, t1, triangle_edges + 3 * j + 2) j in
      put_triangle t2r s (triangle_edges + 3 * j, triangle_edges + 3 * j + 1,
                          triangle_edges + 3 * j + 2) j) s.

  (** refine_tri2d: Library/tri2d.c:968-1112.  [t2r] says whether the caller
      passes a pointer for the description of the refinement; without it no
      description is allocated (and the empty arrays below are not used). *)
  Definition refine_tri2d (t2r : bool) (m : tri2d K) : res (tri2d K * option tri2dref) :=
    let r := new_tri2d (K := K) (t2_vertices m + t2_edges m)
               (2 * t2_edges m + 3 * t2_triangles m) (4 * t2_triangles m) in
    let aux n : arr nat := if t2r then anew n else anew 0 in
    let* s := refine_vertices t2r m
                (t2_x r, t2_xb r, aux (t2_vertices r), aux (t2_vertices r), 0) in
    let edge_vertices := snd s in
    let* (x, xb, xf, xt, i) := refine_midpoints t2r m s in
    do* rassert (i =? t2_vertices r) in
    let* s := refine_halves t2r m edge_vertices
                (t2_e r, t2_eb r, aux (t2_edges r), aux (t2_edges r), 0) in
    let triangle_edges := snd s in
    let* (e, eb, ef, et, _) := refine_inner t2r m edge_vertices s in
    let* (t, tf, _) := refine_triangles t2r m e triangle_edges
                (t2_t r, aux (t2_triangles r), 0) in
    Ok (T2 (t2_vertices r) (t2_edges r) (t2_triangles r) x e t xb eb,
        if t2r then Some (R2 xf xt ef et tf) else None).

  (** [n] refinements in a row, without descriptions. *)
  Fixpoint refine_times (n : nat) (m : tri2d K) : res (tri2d K) :=
    match n with
    | O => Ok m
    | S n' => let* r := refine_tri2d false m in refine_times n' (fst r)
    end.
End Tri2d.
