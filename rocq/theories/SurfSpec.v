(** * Surface meshes: specification

    A mesh is described by plain functions: coordinates of the vertices,
    end points of the edges, corners and sides of the triangles. *)
From Coq Require Import Arith List Bool.
From Verif Require Import Fld Ord Prog Arr HmSpec Surf.
Import ListNotations.

Record sview (K : Type) := SV {
  vV : nat; vE : nat; vT : nat;
  vx : nat -> nat -> K;           (* vx i j: coordinate j of the vertex i, j < 3 *)
  ve : nat -> nat -> nat;         (* ve i h: end h of the edge i, h < 2 *)
  vt : nat -> nat -> nat;         (* vt i j: corner j of the triangle i, j < 3 *)
  vs : nat -> nat -> nat          (* vs i j: side j of the triangle i, j < 3 *)
}.
Arguments SV {_}. Arguments vV {_}. Arguments vE {_}. Arguments vT {_}. Arguments vx {_}.
Arguments ve {_}. Arguments vt {_}. Arguments vs {_}.

(** A table with [c] columns stored row by row. *)
Definition table {A} (a : arr A) (c n : nat) (f : nat -> nat -> A) : Prop :=
  aval a (c * n) (fun p => f (p / c) (p mod c)).

(** The structure [m] in memory holds the mesh [w].  The arrays for normal
    vectors and Gram determinants have the right size; their contents are
    described separately. *)
Definition surf_is {K} (m : surface3d K) (w : sview K) : Prop :=
  s3_vertices m = vV w /\ s3_edges m = vE w /\ s3_triangles m = vT w /\
  table (s3_x m) 3 (vV w) (vx w) /\ table (s3_e m) 2 (vE w) (ve w) /\
  table (s3_t m) 3 (vT w) (vt w) /\ table (s3_s m) 3 (vT w) (vs w) /\
  length (s3_n m) = 3 * vT w /\ length (s3_g m) = vT w.

(** The other corners, in the order in which the triangle is traversed:
    the side [j] leads from corner [nx j] to corner [nx (nx j)]. *)
Definition nx (j : nat) : nat := match j with 0 => 1 | 1 => 2 | _ => 0 end.

(** The edge [k] has the end points [a] and [b]. *)
Definition ends {K} (w : sview K) (k a b : nat) : Prop :=
  (ve w k 0 = a /\ ve w k 1 = b) \/ (ve w k 0 = b /\ ve w k 1 = a).

(** What check_surface3d checks: all numbers are in range, and the side [j]
    of a triangle is an edge between the corners other than [j]. *)
Definition surf_checked {K} (w : sview K) : Prop :=
  (forall k h, k < vE w -> h < 2 -> ve w k h < vV w) /\
  (forall i j, i < vT w -> j < 3 -> vt w i j < vV w) /\
  (forall i j, i < vT w -> j < 3 -> vs w i j < vE w) /\
  (forall i j, i < vT w -> j < 3 -> ends w (vs w i j) (vt w i (nx j)) (vt w i (nx (nx j)))).

(** Triangles have three different corners. *)
Definition surf_ok {K} (w : sview K) : Prop :=
  surf_checked w /\
  forall i, i < vT w -> vt w i 0 <> vt w i 1 /\ vt w i 1 <> vt w i 2 /\ vt w i 2 <> vt w i 0.

(** How many triangles have the edge [k] as a side, and how many of them
    traverse it from [a] to [b]. *)
Definition uses {K} (w : sview K) (k : nat) : nat :=
  nsum (vT w) (fun i => nsum 3 (fun j => if vs w i j =? k then 1 else 0)).
Definition passes {K} (w : sview K) (k a b : nat) : nat :=
  nsum (vT w) (fun i => nsum 3 (fun j =>
    if (vs w i j =? k) && (vt w i (nx j) =? a) && (vt w i (nx (nx j)) =? b) then 1 else 0)).

(** A closed surface: every edge lies between two triangles. *)
Definition closed {K} (w : sview K) : Prop := forall k, k < vE w -> uses w k = 2.

(** An oriented surface: if several triangles meet at an edge, the numbers of
    those that traverse it in one and in the other direction differ by at most
    one.  If two triangles meet, they traverse it in opposite directions. *)
Definition oriented {K} (w : sview K) : Prop := forall k, k < vE w -> 1 < uses w k ->
  passes w k (ve w k 0) (ve w k 1) <= passes w k (ve w k 1) (ve w k 0) + 1 /\
  passes w k (ve w k 1) (ve w k 0) <= passes w k (ve w k 0) (ve w k 1) + 1.

Section Geometry.
  Context {K : fops}.
  Implicit Types w : sview K.

  (** Component [c] of the vector product of the sides (corner 0 to 1 and
      corner 0 to 2) of the triangle [i]. *)
  Definition cross w (i c : nat) : K :=
    let p := vx w (vt w i 0) in let q := vx w (vt w i 1) in let r := vx w (vt w i 2) in
    ((q (nx c) - p (nx c)) * (r (nx (nx c)) - p (nx (nx c)))
     - (q (nx (nx c)) - p (nx (nx c))) * (r (nx c) - p (nx c)))%F.

  (** [w'] is the regular refinement of [w]: the old vertices and the
      midpoints of the old edges; the halves of the old edges and three new
      edges in each triangle; four triangles for each old one. *)
  Definition red_refined w w' : Prop :=
    vV w' = vV w + vE w /\ vE w' = 2 * vE w + 3 * vT w /\ vT w' = 4 * vT w /\
    (forall i j, i < vV w -> j < 3 -> vx w' i j = vx w i j) /\
    (forall k j, k < vE w -> j < 3 ->
       (vx w' (vV w + k) j + vx w' (vV w + k) j)%F = (vx w (ve w k 0) j + vx w (ve w k 1) j)%F) /\
    (forall k, k < vE w ->
       ve w' (2 * k) 0 = ve w k 0 /\ ve w' (2 * k) 1 = vV w + k /\
       ve w' (2 * k + 1) 0 = vV w + k /\ ve w' (2 * k + 1) 1 = ve w k 1) /\
    (forall i j, i < vT w -> j < 3 ->
       vt w' (4 * i + j) 0 = vV w + vs w i (nx j) /\
       vt w' (4 * i + j) 1 = vV w + vs w i j /\
       vt w' (4 * i + j) 2 = vt w i (nx (nx j)) /\
       vt w' (4 * i + 3) j = vV w + vs w i (nx (nx j))).

  (** The square of the length of the vector product. *)
  Definition len2 w (i : nat) : K :=
    (cross w i 0 * cross w i 0 + cross w i 1 * cross w i 1 + cross w i 2 * cross w i 2)%F.
End Geometry.

(** The structure holds the normal vectors [n] and the Gram determinants [g]. *)
Definition has_normals {K} (m : surface3d K) (T : nat) (n : nat -> nat -> K) (g : nat -> K) : Prop :=
  table (s3_n m) 3 T n /\ aval (s3_g m) T g.

(** [n] and [g] fit to the triangles that are not degenerate: [g] is the length
    of the vector product, and [n] is the unit vector in its direction. *)
Definition degenerate {K : fops} (w : sview K) (i : nat) : Prop := forall c, c < 3 -> cross w i c = f0.
Definition normals_fit {K : ofops} (w : sview K) (n : nat -> nat -> K) (g : nat -> K) : Prop :=
  forall i, i < vT w -> ~ degenerate w i ->
    flt f0 (g i) = true /\ (g i * g i)%F = len2 w i /\
    (forall c, c < 3 -> (g i * n i c)%F = cross w i c) /\
    (n i 0%nat * n i 0%nat + n i 1%nat * n i 1%nat + n i 2%nat * n i 2%nat)%F = f1.

(** All vertices lie in the box [a, b]. *)
Definition in_box {K : ofops} (w : sview K) (a b : nat -> K) : Prop :=
  forall i j, i < vV w -> j < 3 -> fle (a j) (vx w i j) /\ fle (vx w i j) (b j).
