(** * Specification vocabulary for cluster trees

    Used in the statements of the theorems, independent of how the trees are
    built. *)
From Coq Require Import Arith Lia List Bool.
From Verif Require Import Fld Ord Prog Arr Cluster.
Import ListNotations.

(** All clusters of a tree in depth-first order, the root first. *)
Fixpoint nodes {K : ofops} (t : cluster K) : list (cluster K) :=
  match t with
  | Cl _ _ sons _ _ _ _ _ => t :: flat_map nodes sons
  end.

(** The leaves from left to right. *)
Fixpoint leaves {K : ofops} (t : cluster K) : list (cluster K) :=
  match t with
  | Cl _ _ sons _ _ _ _ _ => match sons with [] => [t] | _ => flat_map leaves sons end
  end.

(** [tiles off size l]: the index ranges of the clusters in [l] follow each
    other without gap or overlap and fill positions [off .. off+size-1]. *)
Fixpoint tiles {K : ofops} (off size : nat) (l : list (cluster K)) : Prop :=
  match l with
  | [] => size = 0
  | s :: l' => c_off s = off /\ c_size s <= size /\ tiles (off + c_size s) (size - c_size s) l'
  end.

(** [slice f off n]: the entries at positions [off .. off+n-1] of an array. *)
Definition slice {A} (f : nat -> A) (off n : nat) : list A := map f (seq off n).

(** The indices of a cluster, given the contents [f] of the index array. *)
Definition indices {K : ofops} (f : nat -> nat) (t : cluster K) : list nat :=
  slice f (c_off t) (c_size t).

(** Every cluster is non-empty, and sons partition their father. *)
Definition partition_tree {K : ofops} (t : cluster K) : Prop :=
  forall s, In s (nodes t) ->
    0 < c_size s /\ (c_sons s <> [] -> tiles (c_off s) (c_size s) (c_sons s)).

(** [desc] counts the clusters of every subtree. *)
Definition desc_ok {K : ofops} (t : cluster K) : Prop :=
  forall s, In s (nodes t) -> c_desc s = Some (length (nodes s)).

(** Contents of a geometry: points [X k j], support boxes [Smin k j],
    [Smax k j] and weights [W k] for all [k < nidx], [j < dim]. *)
Definition row_val {A} (a : arr (arr A)) (n d : nat) (F : nat -> nat -> A) : Prop :=
  forall k, k < n -> exists r, nth_error a k = Some (Some r) /\ aval r d (F k).

Record geo_val {K : ofops} (cf : cgeom K) (X Smin Smax : nat -> nat -> K) (W : nat -> K) : Prop := GeoVal {
  gv_x : row_val (g_x cf) (g_nidx cf) (g_dim cf) X;
  gv_smin : row_val (g_smin cf) (g_nidx cf) (g_dim cf) Smin;
  gv_smax : row_val (g_smax cf) (g_nidx cf) (g_dim cf) Smax;
  gv_w : aval (g_w cf) (g_nidx cf) W;
  gv_hmin : length (g_hmin cf) = g_dim cf;
  gv_hmax : length (g_hmax cf) = g_dim cf
}.

(** The box of the cluster contains the supports of all its indices. *)
Definition box_contains {K : ofops} (d : nat) (Smin Smax : nat -> nat -> K) (f : nat -> nat)
  (t : cluster K) : Prop :=
  exists B1 B2, aval (c_bmin t) d B1 /\ aval (c_bmax t) d B2 /\
    forall k j, In k (indices f t) -> j < d -> fle (B1 j) (Smin k j) /\ fle (Smax k j) (B2 j).

(** Two indices have the same point. *)
Definition same_point {K : ofops} (d : nat) (X : nat -> nat -> K) (k l : nat) : Prop :=
  forall j, j < d -> X k j = X l j.

(** No more than [clf] of the indices at positions [off .. off+size-1] have the
    same point. *)
Definition no_clump {K : ofops} (d : nat) (X : nat -> nat -> K) (f : nat -> nat) (off size clf : nat) : Prop :=
  forall ps : list nat, NoDup ps -> (forall p, In p ps -> off <= p < off + size) ->
    (forall p q, In p ps -> In q ps -> same_point d X (f p) (f q)) -> length ps <= clf.

(** A depth-first walk through a tree whose root has the number [n]: cluster
    [t] with number [n] is entered, its sons are visited, and it is left.  The
    clusters are numbered in the order in which they are entered. *)
Inductive visit (K : ofops) := Enter (n : nat) (t : cluster K) | Leave (n : nat) (t : cluster K).
Arguments Enter {K}. Arguments Leave {K}.

Fixpoint walk {K : ofops} (t : cluster K) (n : nat) : list (visit K) :=
  match t with
  | Cl _ _ sons _ _ _ _ _ =>
    Enter n t ::
    (fix go l m := match l with [] => [] | s :: l' => walk s m ++ go l' (m + length (nodes s)) end) sons (n + 1)
    ++ [Leave n t]
  end.

Definition entered {K : ofops} (l : list (visit K)) : list (nat * cluster K) :=
  flat_map (fun v => match v with Enter n t => [(n, t)] | Leave _ _ => [] end) l.
Definition left_at {K : ofops} (l : list (visit K)) : list (nat * cluster K) :=
  flat_map (fun v => match v with Leave n t => [(n, t)] | Enter _ _ => [] end) l.

(** Distances of the leaves from the root, from left to right. *)
Fixpoint levels {K : ofops} (t : cluster K) : list nat :=
  match t with
  | Cl _ _ sons _ _ _ _ _ => match sons with [] => [0] | _ => map S (flat_map levels sons) end
  end.

(** Every cluster has an initialised bounding box of dimension [c_dim]. *)
Definition boxes_ok {K : ofops} (t : cluster K) : Prop :=
  forall s, In s (nodes t) -> exists B1 B2, aval (c_bmin s) (c_dim s) B1 /\ aval (c_bmax s) (c_dim s) B2.

(** A point of the box [B1, B2], squared Euclidean distance and maximum
    distance of two points. *)
Definition in_box {K : ofops} (d : nat) (B1 B2 x : nat -> K) : Prop :=
  forall j, j < d -> fle (B1 j) (x j) /\ fle (x j) (B2 j).
Definition fabs {K : ofops} (x : K) : K := if flt x f0 then fopp x else x.
Definition dist2 {K : ofops} (d : nat) (x y : nat -> K) : K :=
  sum d (fun j => fmul (fsub (x j) (y j)) (fsub (x j) (y j))).
Fixpoint distmax {K : ofops} (d : nat) (x y : nat -> K) : K :=
  match d with O => f0 | S d' => fmax (distmax d' x y) (fabs (fsub (x d') (y d'))) end.

(** [t'] has the index range and the bounding box of [t]. *)
Definition same_extent {K : ofops} (t t' : cluster K) : Prop :=
  c_off t' = c_off t /\ c_size t' = c_size t /\ c_dim t' = c_dim t /\
  (forall B, aval (c_bmin t) (c_dim t) B -> aval (c_bmin t') (c_dim t) B) /\
  (forall B, aval (c_bmax t) (c_dim t) B -> aval (c_bmax t') (c_dim t) B).

(** [t'] is a consistent cluster tree for the same indices whose clusters all
    occur in [t] (a cluster may occur several times in a row). *)
Record restructured {K : ofops} (t t' : cluster K) : Prop := Restructured {
  rs_root : same_extent t t';
  rs_part : partition_tree t';
  rs_desc : desc_ok t';
  rs_boxes : boxes_ok t';
  rs_from : forall s', In s' (nodes t') -> exists s, In s (nodes t) /\ same_extent s s'
}.
