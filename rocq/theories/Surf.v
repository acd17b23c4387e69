(** * Surface meshes (Library/surface3d.h, Library/surface3d.c)

    Simplifications, valid for the whole file: an array of pairs or triples
    is one array of its entries, [e[i][j]] is the entry [2 * i + j] and
    [t[i][j]] is the entry [3 * i + j], as the memory layout of C has it;
    unsigned numbers do not wrap around; [hmin] and [hmax] (which the code
    computes from square roots in prepare_surface3d) are left out, and the
    messages are not modelled.  [sq] is the square root. *)
From Coq Require Import Arith ZArith List Bool.
From Verif Require Import Fld Ord Prog Arr Tri2d.
Import ListNotations.
Local Open Scope nat_scope.

(** struct _surface3d: Library/surface3d.h:45-71. *)
Record surface3d (K : Type) := S3 {
  s3_vertices : nat; s3_edges : nat; s3_triangles : nat;
  s3_x : arr K;          (* coordinates of the vertices *)
  s3_e : arr nat;        (* vertices of the edges *)
  s3_t : arr nat;        (* vertices of the triangles *)
  s3_s : arr nat;        (* edges of the triangles *)
  s3_n : arr K;          (* unit normal vectors of the triangles *)
  s3_g : arr K           (* Gram determinants: twice the area of the triangles *)
}.
Arguments S3 {_}. Arguments s3_vertices {_}. Arguments s3_edges {_}. Arguments s3_triangles {_}.
Arguments s3_x {_}. Arguments s3_e {_}. Arguments s3_t {_}. Arguments s3_s {_}.
Arguments s3_n {_}. Arguments s3_g {_}.

(** new_surface3d: Library/surface3d.c:27-48. *)
Definition new_surface3d {K} (vertices edges triangles : nat) : surface3d K :=
  S3 vertices edges triangles (anew (3 * vertices)) (anew (2 * edges)) (anew (3 * triangles))
     (anew (3 * triangles)) (anew (3 * triangles)) (anew triangles).

Section Surf.
  Context {K : fops} (sq : K -> K).
  Implicit Types gr : surface3d K.

  (** [x[p][j] - x[q][j]] for [j = 0, 1, 2] (Library/surface3d.c:65-75). *)
  Definition diff (x : arr K) (p q : nat) : res (K * K * K) :=
    let* p0 := aget x (3 * p + 0) in let* q0 := aget x (3 * q + 0) in
    let* p1 := aget x (3 * p + 1) in let* q1 := aget x (3 * q + 1) in
    let* p2 := aget x (3 * p + 2) in let* q2 := aget x (3 * q + 2) in
    Ok ((p0 - q0)%F, (p1 - q1)%F, (p2 - q2)%F).

  (** The body of the loop of prepare_surface3d: Library/surface3d.c:64-99,
      without the heights.  The values that the code has just stored in
      [n[i]] are kept in local variables. *)
  Definition prepare_triangle (x : arr K) (t : arr nat) (i : nat) (s : arr K * arr K) : res (arr K * arr K) :=
    let '(n, g) := s in
    let* t0 := aget t (3 * i + 0) in let* t1 := aget t (3 * i + 1) in let* t2 := aget t (3 * i + 2) in
    let* (dx0, dx1, dx2) := diff x t1 t0 in
    let* (dy0, dy1, dy2) := diff x t2 t0 in
    let* dz := diff x t2 t1 in
    let n0 := (dx1 * dy2 - dx2 * dy1)%F in
    let n1 := (dx2 * dy0 - dx0 * dy2)%F in
    let n2 := (dx0 * dy1 - dx1 * dy0)%F in
    let norm := sq (n0 * n0 + n1 * n1 + n2 * n2)%F in
    let* g := aset g i norm in
    let* n := aset n (3 * i + 0) (n0 / norm)%F in
    let* n := aset n (3 * i + 1) (n1 / norm)%F in
    let* n := aset n (3 * i + 2) (n2 / norm)%F in
    Ok (n, g).

  (** prepare_surface3d: Library/surface3d.c:50-107. *)
  Definition prepare_surface3d gr : res (surface3d K) :=
    let* (n, g) := rfor 0 (s3_triangles gr) (fun i s => prepare_triangle (s3_x gr) (s3_t gr) i s)
                     (s3_n gr, s3_g gr) in
    Ok (S3 (s3_vertices gr) (s3_edges gr) (s3_triangles gr) (s3_x gr) (s3_e gr) (s3_t gr) (s3_s gr) n g).

  (** check_surface3d: Library/surface3d.c:263-312. *)
  Definition check_side gr (i j problems : nat) : res nat :=
    let* tj := aget (s3_t gr) (3 * i + j) in
    let problems := problems + b2n (s3_vertices gr <=? tj) in
    let* k := aget (s3_s gr) (3 * i + j) in
    if s3_edges gr <=? k then Ok (problems + 1)
    else
      let* e0 := aget (s3_e gr) (2 * k + 0) in
      let* e1 := aget (s3_e gr) (2 * k + 1) in
      let* ta := aget (s3_t gr) (3 * i + (j + 1) mod 3) in
      let* tb := aget (s3_t gr) (3 * i + (j + 2) mod 3) in
      if e0 =? ta then Ok (problems + b2n (negb (e1 =? tb)))
      else Ok (problems + b2n (negb (e0 =? tb) || negb (e1 =? ta))).
  Definition check_surface3d gr : res nat :=
    let* problems := rfor 0 (s3_edges gr) (fun i problems =>
      rfor 0 2 (fun j problems =>
        let* v := aget (s3_e gr) (2 * i + j) in
        Ok (problems + b2n (s3_vertices gr <=? v))) problems) 0 in
    rfor 0 (s3_triangles gr) (fun i problems =>
      rfor 0 3 (fun j problems => check_side gr i j problems) problems) problems.

  (** isclosed_surface3d: Library/surface3d.c:314-340. *)
  Definition isclosed_surface3d gr : res bool :=
    let* visits := rfor 0 (s3_edges gr) (fun i visits => aset visits i 0) (anew (s3_edges gr)) in
    let* visits := rfor 0 (s3_triangles gr) (fun i visits =>
      rfor 0 3 (fun j visits =>
        let* k := aget (s3_s gr) (3 * i + j) in ainc visits k) visits) visits in
    let* problems := rfor 0 (s3_edges gr) (fun i problems =>
      let* c := aget visits i in
      Ok (if negb (c =? 2) then problems + 1 else problems)) 0 in
    Ok (problems =? 0).

  (** isoriented_surface3d: Library/surface3d.c:342-383. *)
  Definition orient_side gr (i j : nat) (s : arr nat * arr Z) : res (arr nat * arr Z) :=
    let '(visits, svisits) := s in
    let* k := aget (s3_s gr) (3 * i + j) in
    let* visits := ainc visits k in
    let* e0 := aget (s3_e gr) (2 * k + 0) in
    let* e1 := aget (s3_e gr) (2 * k + 1) in
    let* ta := aget (s3_t gr) (3 * i + (j + 1) mod 3) in
    let* tb := aget (s3_t gr) (3 * i + (j + 2) mod 3) in
    let* c := aget svisits k in
    if e0 =? ta then
      do* rassert (e1 =? tb) in
      let* svisits := aset svisits k (c + 1)%Z in
      Ok (visits, svisits)
    else
      do* rassert (e0 =? tb) in
      do* rassert (e1 =? ta) in
      let* svisits := aset svisits k (c - 1)%Z in
      Ok (visits, svisits).
  Definition isoriented_surface3d gr : res bool :=
    let* s := rfor 0 (s3_edges gr) (fun i '(visits, svisits) =>
      let* svisits := aset svisits i 0%Z in
      let* visits := aset visits i 0 in
      Ok (visits, svisits)) (anew (s3_edges gr), anew (s3_edges gr)) in
    let* (visits, svisits) := rfor 0 (s3_triangles gr) (fun i s =>
      rfor 0 3 (fun j s => orient_side gr i j s) s) s in
    let* problems := rfor 0 (s3_edges gr) (fun i problems =>
      let* c := aget visits i in
      let* d := aget svisits i in
      Ok (if (1 <? c) && ((d <? -1)%Z || (1 <? d)%Z) then problems + 1 else problems)) 0 in
    Ok (problems =? 0).

  (** translate_surface3d: Library/surface3d.c:424-438. *)
  Definition translate_surface3d gr (d : arr K) : res (surface3d K) :=
    let* x := rfor 0 (s3_vertices gr) (fun i x =>
      rfor 0 3 (fun j x =>
        let* p := aget x (3 * i + j) in
        let* q := aget d j in
        aset x (3 * i + j) (p + q)%F) x) (s3_x gr) in
    prepare_surface3d (S3 (s3_vertices gr) (s3_edges gr) (s3_triangles gr) x (s3_e gr) (s3_t gr)
                          (s3_s gr) (s3_n gr) (s3_g gr)).

  (** merge_surface3d: Library/surface3d.c:440-502.  The loop over the
      components of [x], [e], [t], [s] and [n] replaces the single assignments;
      the code does copy three entries of each pair [e[i]]. *)
  Definition copy3 {A} (f : A -> A) (src : arr A) (cs : nat) (dst : arr A) (cd : nat) (i off : nat) : res (arr A) :=
    rfor 0 3 (fun j dst =>
      let* a := aget src (cs * i + j) in
      aset dst (cd * (i + off) + j) (f a)) dst.
  Definition merge_surface3d gr1 gr2 : res (surface3d K) :=
    let gr := new_surface3d (K := K) (s3_vertices gr1 + s3_vertices gr2) (s3_edges gr1 + s3_edges gr2)
                (s3_triangles gr1 + s3_triangles gr2) in
    let id3 {A} (a : A) := a in
    let V := s3_vertices gr1 in let E := s3_edges gr1 in let T := s3_triangles gr1 in
    let* x := rfor 0 V (fun i x => copy3 id3 (s3_x gr1) 3 x 3 i 0) (s3_x gr) in
    let* x := rfor 0 (s3_vertices gr2) (fun i x => copy3 id3 (s3_x gr2) 3 x 3 i V) x in
    let* e := rfor 0 E (fun i e => copy3 id3 (s3_e gr1) 2 e 2 i 0) (s3_e gr) in
    let* e := rfor 0 (s3_edges gr2) (fun i e => copy3 (fun a => a + V) (s3_e gr2) 2 e 2 i E) e in
    let* t := rfor 0 T (fun i t => copy3 id3 (s3_t gr1) 3 t 3 i 0) (s3_t gr) in
    let* s := rfor 0 T (fun i s => copy3 id3 (s3_s gr1) 3 s 3 i 0) (s3_s gr) in
    let* n := rfor 0 T (fun i n => copy3 id3 (s3_n gr1) 3 n 3 i 0) (s3_n gr) in
    let* g := rfor 0 T (fun i g => let* a := aget (s3_g gr1) i in aset g i a) (s3_g gr) in
    let* t := rfor 0 (s3_triangles gr2) (fun i t => copy3 (fun a => a + V) (s3_t gr2) 3 t 3 i T) t in
    let* s := rfor 0 (s3_triangles gr2) (fun i s => copy3 (fun a => a + E) (s3_s gr2) 3 s 3 i T) s in
    let* n := rfor 0 (s3_triangles gr2) (fun i n => copy3 id3 (s3_n gr2) 3 n 3 i T) n in
    let* g := rfor 0 (s3_triangles gr2) (fun i g => let* a := aget (s3_g gr2) i in aset g (i + T) a) g in
    Ok (S3 (s3_vertices gr) (s3_edges gr) (s3_triangles gr) x e t s n g).

  (** refine_red_surface3d, vertices and halves of the edges:
      Library/surface3d.c:1506-1522. *)
  Definition refine_old gr (x : arr K) : res (arr K * nat) :=
    rfor 0 (s3_vertices gr) (fun _ '(x, v) =>
      let* x := rfor 0 3 (fun j x =>
        let* p := aget (s3_x gr) (3 * v + j) in aset x (3 * v + j) p) x in
      Ok (x, v + 1)) (x, 0).
  Definition refine_mids gr (s : arr K * arr nat * nat) : res (arr K * arr nat * nat) :=
    rfor 0 (s3_edges gr) (fun e '(x, ne, v) =>
      let* e0 := aget (s3_e gr) (2 * e + 0) in
      let* e1 := aget (s3_e gr) (2 * e + 1) in
      let* x := rfor 0 3 (fun j x =>
        let* p := aget (s3_x gr) (3 * e0 + j) in
        let* q := aget (s3_x gr) (3 * e1 + j) in
        aset x (3 * v + j) (half K * (p + q))%F) x in
      let* ne := aset ne (2 * (2 * e) + 0) e0 in
      let* ne := aset ne (2 * (2 * e) + 1) v in
      let* ne := aset ne (2 * (2 * e + 1) + 0) v in
      let* ne := aset ne (2 * (2 * e + 1) + 1) e1 in
      Ok (x, ne, v + 1)) s.

  (** The three arrays of indices of the new mesh and the counters [e] and
      [s]. *)
  Definition rstate := (arr nat * arr nat * arr nat * nat * nat)%type.

  (** The choice of the halves: the number of the half of the edge [j], of
      the half of the edge [(j + 1) % 3], and the components of [gr->e] that
      give the first and the last vertex (Library/surface3d.c:1533-1568). *)
  Definition choose_halves (a b a0 a1 b0 b1 : nat) : res (nat * nat * nat * nat) :=
    if a1 =? b1 then Ok (2 * b + 1, 2 * a + 1, 0, 1)
    else if a0 =? b1 then Ok (2 * b + 1, 2 * a, 1, 1)
    else if a1 =? b0 then Ok (2 * b, 2 * a + 1, 0, 0)
    else if a0 =? b0 then Ok (2 * b, 2 * a, 1, 0)
    else Err EAssert.

  (** One of the three triangles at the corners and its new edge:
      Library/surface3d.c:1529-1574.  [abort] is modelled as a failed
      assertion. *)
  Definition refine_corner gr (t j : nat) (st : rstate) : res rstate :=
    let '(ne, ns, nt, e, s) := st in
    let* a := aget (s3_s gr) (3 * t + (j + 1) mod 3) in
    let* b := aget (s3_s gr) (3 * t + j) in
    let* ma := aget ne (2 * (2 * a + 1) + 0) in
    let* ne := aset ne (2 * e + 0) ma in
    let* mb := aget ne (2 * (2 * b + 1) + 0) in
    let* ne := aset ne (2 * e + 1) mb in
    let e := e + 1 in
    let* a0 := aget (s3_e gr) (2 * a + 0) in
    let* a1 := aget (s3_e gr) (2 * a + 1) in
    let* b0 := aget (s3_e gr) (2 * b + 0) in
    let* b1 := aget (s3_e gr) (2 * b + 1) in
    let* (h0, h1, c0, c2) := choose_halves a b a0 a1 b0 b1 in
    let* ns := aset ns (3 * s + 0) h0 in
    let* ns := aset ns (3 * s + 1) h1 in
    let* ns := aset ns (3 * s + 2) (e - 1) in
    let* v0 := aget ne (2 * h1 + c0) in
    let* nt := aset nt (3 * s + 0) v0 in
    let* v1 := aget ne (2 * (e - 1) + 1) in
    let* nt := aset nt (3 * s + 1) v1 in
    let* v2 := aget ne (2 * h0 + c2) in
    let* nt := aset nt (3 * s + 2) v2 in
    Ok (ne, ns, nt, e, s + 1).

  (** The triangle in the middle: Library/surface3d.c:1576-1580. *)
  Definition refine_centre (st : rstate) : res rstate :=
    let '(ne, ns, nt, e, s) := st in
    let* (ns, nt) := rfor 0 3 (fun i '(ns, nt) =>
      let* ns := aset ns (3 * s + i) (e - 3 + i) in
      let* v := aget ne (2 * (e - 3 + (i + 1) mod 3) + 0) in
      let* nt := aset nt (3 * s + i) v in
      Ok (ns, nt)) (ns, nt) in
    Ok (ne, ns, nt, e, s + 1).

  (** refine_red_surface3d: Library/surface3d.c:1488-1593. *)
  Definition refine_red_surface3d gr : res (surface3d K) :=
    let newtriangles := 4 * s3_triangles gr in
    let newedges := 2 * s3_edges gr + 3 * s3_triangles gr in
    let newvertices := s3_vertices gr + s3_edges gr in
    let r := new_surface3d (K := K) newvertices newedges newtriangles in
    let* (x, v) := refine_old gr (s3_x r) in
    let* (x, ne, v) := refine_mids gr (x, s3_e r, v) in
    let* (ne, ns, nt, e, s) := rfor 0 (s3_triangles gr) (fun t st =>
      let* st := rfor 0 3 (fun j st => refine_corner gr t j st) st in
      refine_centre st) (ne, s3_s r, s3_t r, s3_edges gr * 2, 0) in
    do* rassert (s =? newtriangles) in
    do* rassert (e =? newedges) in
    do* rassert (v =? newvertices) in
    prepare_surface3d (S3 newvertices newedges newtriangles x ne nt ns (s3_n r) (s3_g r)).
End Surf.

(** scale_surface3d: Library/surface3d.c:385-422.  [big] is the constant
    1e30; the loops over the directions [j < 3] for [min], [max], [diam] are
    unrolled. *)
Section Scale.
  Context {K : ofops} (sq : K -> K) (big : K).
  Definition minmax (x : arr K) (vertices j : nat) : res (K * K) :=
    rfor 0 vertices (fun i '(mn, mx) =>
      let* y := aget x (3 * i + j) in
      Ok (if flt y mn then y else mn, if flt mx y then y else mx)) (big, fopp big).
  Definition pick (d : nat) (p0 p1 p2 : K) : K := match d with 0 => p0 | 1 => p1 | _ => p2 end.
  Definition scale_surface3d (gr : surface3d K) (a b : arr K) : res (surface3d K) :=
    let* (min0, max0) := minmax (s3_x gr) (s3_vertices gr) 0 in
    let* (min1, max1) := minmax (s3_x gr) (s3_vertices gr) 1 in
    let* (min2, max2) := minmax (s3_x gr) (s3_vertices gr) 2 in
    let* a0 := aget a 0 in let* a1 := aget a 1 in let* a2 := aget a 2 in
    let* b0 := aget b 0 in let* b1 := aget b 1 in let* b2 := aget b 2 in
    let diam0 := ((max0 - min0) / (b0 - a0))%F in
    let diam1 := ((max1 - min1) / (b1 - a1))%F in
    let diam2 := ((max2 - min2) / (b2 - a2))%F in
    let d := if flt diam1 diam0 then (if flt diam2 diam0 then 0 else 2)
             else (if flt diam2 diam1 then 1 else 2) in
    let beta := ((pick d b0 b1 b2 - pick d a0 a1 a2) / (pick d max0 max1 max2 - pick d min0 min1 min2))%F in
    let alpha := (pick d a0 a1 a2 - beta * pick d min0 min1 min2)%F in
    let* x := rfor 0 3 (fun j x =>
      rfor 0 (s3_vertices gr) (fun i x =>
        let* y := aget x (3 * i + j) in
        aset x (3 * i + j) (alpha + beta * y)%F) x) (s3_x gr) in
    prepare_surface3d sq (S3 (s3_vertices gr) (s3_edges gr) (s3_triangles gr) x (s3_e gr) (s3_t gr)
                             (s3_s gr) (s3_n gr) (s3_g gr)).
End Scale.
