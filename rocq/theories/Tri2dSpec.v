(** * Triangular meshes in the plane: specification

    A mesh is described by plain functions: coordinates of the vertices,
    end points of the edges, edges of the triangles and boundary flags. *)
From Coq Require Import Arith List Bool.
From Verif Require Import Fld Prog Arr HmSpec Tri2d.
Import ListNotations.

Record mview (K : Type) := MV {
  mV : nat; mE : nat; mT : nat;
  mx : nat -> K * K;              (* coordinates of a vertex *)
  me : nat -> nat * nat;          (* end points of an edge *)
  mt : nat -> nat -> nat;         (* mt j k: edge k of the triangle j, k < 3 *)
  mxb : nat -> nat;               (* boundary flags *)
  meb : nat -> nat
}.
Arguments MV {_}. Arguments mV {_}. Arguments mE {_}. Arguments mT {_}. Arguments mx {_}.
Arguments me {_}. Arguments mt {_}. Arguments mxb {_}. Arguments meb {_}.

(** The structure [m] in memory holds the mesh [w]. *)
Definition mesh_is {K} (m : tri2d K) (w : mview K) : Prop :=
  t2_vertices m = mV w /\ t2_edges m = mE w /\ t2_triangles m = mT w /\
  aval (t2_x m) (mV w) (mx w) /\ aval (t2_e m) (mE w) (me w) /\
  aval (t2_t m) (mT w) (fun j => (mt w j 0, mt w j 1, mt w j 2)) /\
  aval (t2_xb m) (mV w) (mxb w) /\ aval (t2_eb m) (mE w) (meb w).

(** The edge [p] has the end points [a] and [b]. *)
Definition joins (p : nat * nat) (a b : nat) : Prop := p = (a, b) \/ p = (b, a).

(** Triangle [j] is a triangle with the corners [v0], [v1], [v2], and the edge
    [k] is the one opposite the corner [k]. *)
Definition corners {K} (w : mview K) (j v0 v1 v2 : nat) : Prop :=
  v0 <> v1 /\ v1 <> v2 /\ v2 <> v0 /\
  (forall k, k < 3 -> mt w j k < mE w) /\
  joins (me w (mt w j 0)) v1 v2 /\ joins (me w (mt w j 1)) v2 v0 /\ joins (me w (mt w j 2)) v0 v1.

(** How often the edge [i] appears in a triangle. *)
Definition adjacent {K} (w : mview K) (i : nat) : nat :=
  nsum (mT w) (fun j => nsum 3 (fun k => if mt w j k =? i then 1 else 0)).

(** A consistent mesh: edges join two different vertices, triangles are
    triangles, an inner edge lies between two triangles and a boundary edge
    belongs to one, and boundary edges lead along boundary vertices. *)
Definition mesh_ok {K} (w : mview K) : Prop :=
  (forall i, i < mE w -> fst (me w i) < mV w /\ snd (me w i) < mV w /\ fst (me w i) <> snd (me w i)) /\
  (forall j, j < mT w -> exists v0 v1 v2, corners w j v0 v1 v2) /\
  (forall i, i < mE w -> meb w i = 0 -> adjacent w i = 2) /\
  (forall i, i < mE w -> meb w i = 1 -> adjacent w i = 1) /\
  (forall i, i < mE w -> meb w i = 1 ->
     mxb w (fst (me w i)) <> 0 /\ mxb w (snd (me w i)) <> 0).

(** What check_tri2d checks: the same with "exactly three vertices lie on the
    three edges" in place of "is a triangle". *)
Definition three_vertices {K} (w : mview K) (j : nat) : Prop :=
  exists l : list nat, NoDup l /\ length l = 3 /\
    forall v, In v l <-> exists k, k < 3 /\ (fst (me w (mt w j k)) = v \/ snd (me w (mt w j k)) = v).
Definition mesh_checked {K} (w : mview K) : Prop :=
  (forall i, i < mE w -> fst (me w i) < mV w /\ snd (me w i) < mV w) /\
  (forall j, j < mT w -> (forall k, k < 3 -> mt w j k < mE w) /\ three_vertices w j) /\
  (forall i, i < mE w -> meb w i = 0 -> adjacent w i = 2) /\
  (forall i, i < mE w -> meb w i = 1 -> adjacent w i = 1) /\
  (forall i, i < mE w -> meb w i = 1 ->
     mxb w (fst (me w i)) <> 0 /\ mxb w (snd (me w i)) <> 0).

Section Refined.
  Context {K : fops}.
  Implicit Types w : mview K.

  (** [q] is the midpoint of [p1] and [p2]. *)
  Definition midpoint (p1 p2 q : K * K) : Prop :=
    (fst q + fst q)%F = (fst p1 + fst p2)%F /\ (snd q + snd q)%F = (snd p1 + snd p2)%F.

  (** [w'] is the regular refinement of [w]: the old vertices and the
      midpoints of the old edges, the halves of the old edges and three new
      edges in each triangle, and four triangles for each old one. *)
  Definition refined (w w' : mview K) : Prop :=
    mV w' = mV w + mE w /\ mE w' = 2 * mE w + 3 * mT w /\ mT w' = 4 * mT w /\
    (forall i, i < mV w -> mx w' i = mx w i /\ mxb w' i = mxb w i) /\
    (forall i, i < mE w ->
       midpoint (mx w (fst (me w i))) (mx w (snd (me w i))) (mx w' (mV w + i)) /\
       mxb w' (mV w + i) = meb w i) /\
    (forall i, i < mE w ->
       me w' (2 * i) = (fst (me w i), mV w + i) /\ meb w' (2 * i) = meb w i /\
       me w' (2 * i + 1) = (mV w + i, snd (me w i)) /\ meb w' (2 * i + 1) = meb w i) /\
    (forall j k, j < mT w -> k < 3 -> meb w' (2 * mE w + 3 * j + k) = 0) /\
    (forall j v0 v1 v2, j < mT w -> corners w j v0 v1 v2 ->
       let m0 := mV w + mt w j 0 in let m1 := mV w + mt w j 1 in let m2 := mV w + mt w j 2 in
       corners w' (4 * j) v0 m2 m1 /\ corners w' (4 * j + 1) m2 v1 m0 /\
       corners w' (4 * j + 2) m1 m0 v2 /\ corners w' (4 * j + 3) m0 m1 m2).

  (** Twice the signed area of a triangle. *)
  Definition det (p q r : K * K) : K :=
    ((fst q - fst p) * (snd r - snd p) - (fst r - fst p) * (snd q - snd p))%F.

  (** The description of the refinement: where each vertex, edge and triangle
      of the fine mesh comes from (type 0: a vertex, 1: an edge, 2: a
      triangle of the coarse mesh). *)
  Definition describes (r : tri2dref) (w : mview K) : Prop :=
    exists xf xt ef et tf : nat -> nat,
      aval (r2_xf r) (mV w + mE w) xf /\ aval (r2_xt r) (mV w + mE w) xt /\
      aval (r2_ef r) (2 * mE w + 3 * mT w) ef /\ aval (r2_et r) (2 * mE w + 3 * mT w) et /\
      aval (r2_tf r) (4 * mT w) tf /\
      (forall i, i < mV w -> xt i = 0 /\ xf i = i) /\
      (forall i, i < mE w -> xt (mV w + i) = 1 /\ xf (mV w + i) = i) /\
      (forall i h, i < mE w -> h < 2 -> et (2 * i + h) = 1 /\ ef (2 * i + h) = i) /\
      (forall j k, j < mT w -> k < 3 ->
         et (2 * mE w + 3 * j + k) = 2 /\ ef (2 * mE w + 3 * j + k) = j) /\
      (forall j q, j < mT w -> q < 4 -> tf (4 * j + q) = j).
End Refined.
