(** * Polygons in the plane (Library/curve2d.h, Library/curve2d.c)

    Simplifications, valid for the whole file: an array of pairs is one array
    of its entries, [x[i][j]] is the entry [2 * i + j], as the memory layout of
    C has it; unsigned numbers do not wrap around.  [sq] is the square root,
    [sn i m] and [cs i m] are the sine and the cosine of [2 pi i / m].
    hilbert_rec_curve2d, new_hilbert_curve2d, the output functions and
    del_curve2d are not modelled. *)
From Coq Require Import Arith List Bool.
From Verif Require Import Fld Ord Prog Arr.
Import ListNotations.
Local Open Scope nat_scope.

(** struct _curve2d: Library/curve2d.h:46-61. *)
Record curve2d (K : Type) := C2 {
  c2_vertices : nat; c2_edges : nat;
  c2_x : arr K;          (* coordinates of the vertices *)
  c2_e : arr nat;        (* vertices of the edges *)
  c2_n : arr K;          (* normal vectors *)
  c2_g : arr K           (* lengths of the edges *)
}.
Arguments C2 {_}. Arguments c2_vertices {_}. Arguments c2_edges {_}.
Arguments c2_x {_}. Arguments c2_e {_}. Arguments c2_n {_}. Arguments c2_g {_}.

(** new_curve2d: Library/curve2d.c:17-32. *)
Definition new_curve2d {K} (vertices edges : nat) : curve2d K :=
  C2 vertices edges (anew (2 * vertices)) (anew (2 * edges)) (anew (2 * edges)) (anew edges).

(** The conversion of an unsigned number to a real number. *)
Fixpoint fnat {K : fops} (n : nat) : K :=
  match n with O => f0 | S n' => (fnat n' + f1)%F end.

Section Curve.
  Context {K : fops} (sq : K -> K) (sn cs : nat -> nat -> K).
  Implicit Types gr : curve2d K.

  (** The body of the loop of prepare_curve2d: Library/curve2d.c:45-52.  The
      values that the code has just stored in [n[i]] are kept in local variables. *)
  Definition prepare_edge (x : arr K) (e : arr nat) (i : nat) (s : arr K * arr K) : res (arr K * arr K) :=
    let '(n, g) := s in
    let* e0 := aget e (2 * i + 0) in let* e1 := aget e (2 * i + 1) in
    let* b1 := aget x (2 * e1 + 1) in let* a1 := aget x (2 * e0 + 1) in
    let* a0 := aget x (2 * e0 + 0) in let* b0 := aget x (2 * e1 + 0) in
    let n0 := (b1 - a1)%F in
    let n1 := (a0 - b0)%F in
    let norm := sq (n0 * n0 + n1 * n1)%F in
    let* g := aset g i norm in
    let* n := aset n (2 * i + 0) (n0 / norm)%F in
    let* n := aset n (2 * i + 1) (n1 / norm)%F in
    Ok (n, g).

  (** prepare_curve2d: Library/curve2d.c:34-53. *)
  Definition prepare_curve2d gr : res (curve2d K) :=
    let* (n, g) := rfor 0 (c2_edges gr) (fun i s => prepare_edge (c2_x gr) (c2_e gr) i s) (c2_n gr, c2_g gr) in
    Ok (C2 (c2_vertices gr) (c2_edges gr) (c2_x gr) (c2_e gr) n g).

  (** [e[i][0] = i; e[i][1] = (i + 1) % edges] (Library/curve2d.c:85-86, 130-131,
      425-426 and 435-436). *)
  Definition set_edge (edges i : nat) (e : arr nat) : res (arr nat) :=
    let* e := aset e (2 * i + 0) i in
    aset e (2 * i + 1) ((i + 1) mod edges).
  (** [x[i][0] = u; x[i][1] = v]. *)
  Definition set_vertex (i : nat) (u v : K) (x : arr K) : res (arr K) :=
    let* x := aset x (2 * i + 0) u in
    aset x (2 * i + 1) v.

  (** new_circle_curve2d: Library/curve2d.c:69-92. *)
  Definition new_circle_curve2d (edges : nat) (r : K) : res (curve2d K) :=
    do* rassert (3 <=? edges) in
    let gr := new_curve2d edges edges in
    let* (x, e) := rfor 0 edges (fun i '(x, e) =>
      let* x := set_vertex i (r * sn i edges)%F (r * cs i edges)%F x in
      let* e := set_edge edges i e in
      Ok (x, e)) (c2_x gr, c2_e gr) in
    prepare_curve2d (C2 edges edges x e (c2_n gr) (c2_g gr)).

  (** new_square_curve2d: Library/curve2d.c:94-138.  The second to the fourth
      loop go on counting where the one before has stopped. *)
  Definition new_square_curve2d (edges : nat) (a : K) : res (curve2d K) :=
    do* rassert (4 <=? edges) in
    let a := (a * (f1 / f2))%F in
    let top := edges / 4 in
    let left := edges / 2 in
    let bottom := 3 * edges / 4 in
    let gr := new_curve2d edges edges in
    let* x := rfor 0 top (fun i x =>
      set_vertex i (a - f2 * a * fnat i / fnat top)%F a x) (c2_x gr) in
    let* x := rfor top (left - top) (fun i x =>
      set_vertex i (- a)%F (a - f2 * a * fnat (i - top) / fnat (left - top))%F x) x in
    let* x := rfor left (bottom - left) (fun i x =>
      set_vertex i (- a + f2 * a * fnat (i - left) / fnat (bottom - left))%F (- a)%F x) x in
    let* x := rfor bottom (edges - bottom) (fun i x =>
      set_vertex i a (- a + f2 * a * fnat (i - bottom) / fnat (edges - bottom))%F x) x in
    let* e := rfor 0 edges (fun i e => set_edge edges i e) (c2_e gr) in
    prepare_curve2d (C2 edges edges x e (c2_n gr) (c2_g gr)).

  (** One intermediate vertex of a spike: Library/curve2d.c:428-437. *)
  Definition star_vertex (edges d i j nu : nat) (s : arr K * arr nat) : res (arr K * arr nat) :=
    let '(x, e) := s in
    let k := d * ((i + 1) mod 16) in
    let* p0 := aget x (2 * (d * i) + 0) in let* q0 := aget x (2 * k + 0) in
    let* p1 := aget x (2 * (d * i) + 1) in let* q1 := aget x (2 * k + 1) in
    let* x := set_vertex nu (p0 + (q0 - p0) * (fnat j / fnat d))%F (p1 + (q1 - p1) * (fnat j / fnat d))%F x in
    let* e := set_edge edges nu e in
    Ok (x, e).

  (** new_star_curve2d: Library/curve2d.c:387-445 (the coordinates of
      a corner are scaled before they are written). *)
  Definition new_star_curve2d (edges : nat) (r : K) : res (curve2d K) :=
    let spikes := 16 in
    do* rassert (spikes <=? edges) in
    do* rassert (edges mod spikes =? 0) in
    let d := edges / spikes in
    do* rassert (d * spikes =? edges) in
    let ri := (f1 / (f2 * f2) * r)%F in
    let gr := new_curve2d edges edges in
    let* x := rfor 0 spikes (fun i x =>
      let f := if i mod 2 =? 0 then r else ri in
      set_vertex (d * i) (sn i spikes * f)%F (cs i spikes * f)%F x) (c2_x gr) in
    let* (nu, x, e) := rfor 0 spikes (fun i '(nu, x, e) =>
      let* e := set_edge edges nu e in
      let nu := nu + 1 in
      rfor 1 (d - 1) (fun j '(nu, x, e) =>
        let* (x, e) := star_vertex edges d i j nu (x, e) in
        Ok (nu + 1, x, e)) (nu, x, e)) (0, x, c2_e gr) in
    do* rassert (nu =? edges) in
    prepare_curve2d (C2 edges edges x e (c2_n gr) (c2_g gr)).
End Curve.
