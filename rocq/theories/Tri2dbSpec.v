(** * Construction of triangular meshes: specification *)
From Coq Require Import Arith List Bool.
From Verif Require Import Fld Ord Prog Arr HmSpec Tri2d Tri2dSpec.
Import ListNotations.

(** The corner opposite the edge [k] of a triangle with the corners [v0], [v1], [v2]. *)
Definition opposite (v0 v1 v2 k : nat) : nat := match k with 0 => v0 | 1 => v1 | _ => v2 end.

(** The boundary edges are oriented counter-clockwise: the triangle is not on
    the right-hand side of its boundary edges. *)
Definition ccw_boundary {G : ofops} (w : mview G) : Prop :=
  forall j v0 v1 v2 k, j < mT w -> corners w j v0 v1 v2 -> k < 3 -> meb w (mt w j k) = 1 ->
    let e := me w (mt w j k) in
    fle f0 (det (mx w (fst e)) (mx w (snd e)) (mx w (opposite v0 v1 v2 k))).

(** Only edges that are not inner edges may be reversed, nothing else changes. *)
Definition reversed {K} (w w' : mview K) : Prop :=
  mV w' = mV w /\ mE w' = mE w /\ mT w' = mT w /\
  (forall i, i < mV w -> mx w' i = mx w i /\ mxb w' i = mxb w i) /\
  (forall i, i < mE w -> meb w' i = meb w i) /\
  (forall j k, j < mT w -> k < 3 -> mt w' j k = mt w j k) /\
  (forall i, i < mE w -> me w' i = me w i \/ meb w i <> 0 /\ me w' i = (snd (me w i), fst (me w i))).

(** How many triangles of a list have both [a] and [b] as corners. *)
Definition has (t : nat * nat * nat) (a : nat) : bool :=
  (fst (fst t) =? a) || (snd (fst t) =? a) || (snd t =? a).
Definition sharing (tris : list (nat * nat * nat)) (a b : nat) : nat :=
  length (filter (fun t => has t a && has t b) tris).

(** The input of the builder: triangles with three different corners among
    the [n] vertices, at most two at each edge. *)
Definition tris_ok (n : nat) (tris : list (nat * nat * nat)) : Prop :=
  (forall v0 v1 v2, In (v0, v1, v2) tris ->
     v0 < n /\ v1 < n /\ v2 < n /\ v0 <> v1 /\ v1 <> v2 /\ v2 <> v0) /\
  (forall a b, a <> b -> sharing tris a b <= 2).

(** The mesh [w] consists of these triangles. *)
Definition built {G : ofops} (x : list (G * G)) (tris : list (nat * nat * nat)) (w : mview G) : Prop :=
  mV w = length x /\ mT w = length tris /\
  (forall i p, nth_error x i = Some p -> mx w i = p) /\
  (forall j v0 v1 v2, nth_error tris j = Some (v0, v1, v2) -> corners w j v0 v1 v2) /\
  (* every edge exists only once *)
  (forall i i' a b, i < mE w -> i' < mE w -> joins (me w i) a b -> joins (me w i') a b -> i = i') /\
  (* the boundary consists of the edges with one triangle *)
  (forall i a b, i < mE w -> joins (me w i) a b ->
     1 <= sharing tris a b /\ meb w i = if sharing tris a b =? 1 then 1 else 0) /\
  (forall v, v < mV w ->
     (mxb w v = 1 /\ exists i, i < mE w /\ meb w i = 1 /\ (fst (me w i) = v \/ snd (me w i) = v)) \/
     (mxb w v = 0 /\ forall i, i < mE w -> meb w i = 1 -> fst (me w i) <> v /\ snd (me w i) <> v)).
