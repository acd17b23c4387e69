(** * Specification vocabulary for block trees *)
From Coq Require Import Arith Lia List Bool.
From Verif Require Import Fld Ord Prog Arr Cluster ClusterSpec Block.
Import ListNotations.

(** All blocks of a tree, the root first, then the sons column by column. *)
Fixpoint bnodes {K : ofops} (b : block K) : list (block K) :=
  match b with
  | Blk _ _ _ _ _ son _ => b :: flat_map (fun o => match o with Some s => bnodes s | None => [] end) son
  end.
(** The blocks without sons. *)
Fixpoint bleaves {K : ofops} (b : block K) : list (block K) :=
  match b with
  | Blk _ _ _ _ _ son _ =>
    match son with
    | [] => [b]
    | _ => flat_map (fun o => match o with Some s => bleaves s | None => [] end) son
    end
  end.

(** References to the sons of a cluster. *)
Definition cp_split {K : ofops} (p : cptr K) : list (cptr K) :=
  map (fun '(i, s) => CP (i :: cp_path p) s) (combine (seq 0 (cp_sons p)) (c_sons (cp_c p))).
(** A block splits a cluster into its sons or keeps it. *)
Definition splitting {K : ofops} (p : cptr K) (l : list (cptr K)) : Prop :=
  l = [p] \/ (c_sons (cp_c p) <> [] /\ l = cp_split p).

(** A block has no sons, or its sons are given by a splitting [R] of the row
    cluster and a splitting [C] of the column cluster, at least one of which is
    proper; they are stored by columns. *)
Definition block_node {K : ofops} (b : block K) : Prop :=
  b_desc b = Some (length (bnodes b)) /\
  ((b_rsons b = 0 /\ b_csons b = 0 /\ b_son b = []) \/
   exists R C cols, splitting (b_rc b) R /\ splitting (b_cc b) C /\ ~ (R = [b_rc b] /\ C = [b_cc b]) /\
     b_rsons b = length R /\ b_csons b = length C /\ b_son b = map Some (concat cols) /\
     Forall2 (fun c col => Forall2 (fun r s => b_rc s = r /\ b_cc s = c) R col) C cols).
Definition block_tree {K : ofops} (b : block K) : Prop := forall s, In s (bnodes b) -> block_node s.

(** The row and column clusters of a block tree over the cluster trees [rt]
    and [ct]. *)
Fixpoint at_path {K : ofops} (t : cluster K) (p : list nat) : option (cluster K) :=
  match p with
  | [] => Some t
  | i :: p' => match nth_error (c_sons t) i with Some s => at_path s p' | None => None end
  end.
Definition points_into {K : ofops} (t : cluster K) (p : cptr K) : Prop := at_path t (rev (cp_path p)) = Some (cp_c p).

(** The number of the cluster at a path when the tree is numbered depth first. *)
Fixpoint cnum {K : ofops} (t : cluster K) (p : list nat) : nat :=
  match p with
  | [] => 0
  | i :: p' =>
    1 + length (flat_map nodes (firstn i (c_sons t))) +
    match nth_error (c_sons t) i with Some s => cnum s p' | None => 0 end
  end.
Definition cpnum {K : ofops} (t : cluster K) (p : cptr K) : nat := cnum t (rev (cp_path p)).

(** A depth-first walk through a block tree, as [walk] for cluster trees. *)
Inductive bvisit (K : ofops) := BEnter (n : nat) (b : block K) | BLeave (n : nat) (b : block K).
Arguments BEnter {K}. Arguments BLeave {K}.
Fixpoint bwalk {K : ofops} (b : block K) (n : nat) : list (bvisit K) :=
  match b with
  | Blk _ _ _ _ _ son _ =>
    BEnter n b ::
    (fix go l m := match l with
      | [] => []
      | Some s :: l' => bwalk s m ++ go l' (m + length (bnodes s))
      | None :: l' => go l' m
      end) son (n + 1)
    ++ [BLeave n b]
  end.

Definition bentered {K : ofops} (l : list (bvisit K)) : list (nat * block K) :=
  flat_map (fun v => match v with BEnter n b => [(n, b)] | BLeave _ _ => [] end) l.
Definition bleft_at {K : ofops} (l : list (bvisit K)) : list (nat * block K) :=
  flat_map (fun v => match v with BLeave n b => [(n, b)] | BEnter _ _ => [] end) l.

(** The pairs of row and column indices of a block; [f] and [g] are the contents
    of the row and column index arrays. *)
Definition bpairs {K : ofops} (f g : nat -> nat) (b : block K) : list (nat * nat) :=
  list_prod (indices f (cp_c (b_rc b))) (indices g (cp_c (b_cc b))).

(** A block on or below the diagonal, and what identifies a leaf: its row and
    column cluster and whether it is admissible. *)
Definition below {K : ofops} (x : block K) : bool := c_off (cp_c (b_cc x)) <=? c_off (cp_c (b_rc x)).
Definition leaf_key {K : ofops} (x : block K) := (cp_path (b_rc x), cp_path (b_cc x), b_a x).

(** Distances of the blocks from the root. *)
Fixpoint blevels {K : ofops} (b : block K) : list nat :=
  match b with
  | Blk _ _ _ _ _ son _ => 0 :: map S (flat_map (fun o => match o with Some s => blevels s | None => [] end) son)
  end.

(** Number of blocks of the tree [b] with the row (column) cluster of [s]. *)
Definition row_count {K : ofops} (b s : block K) : nat :=
  length (filter (fun x => cp_eqb (b_rc x) (b_rc s)) (bnodes b)).
Definition col_count {K : ofops} (b s : block K) : nat :=
  length (filter (fun x => cp_eqb (b_cc x) (b_cc s)) (bnodes b)).

(** The calls of a traversal in sequential order. *)
Fixpoint pcalls {A} (t : ptree A) : list A :=
  match t with
  | Pcalls l => l
  | Pseq t1 t2 => pcalls t1 ++ pcalls t2
  | Ppar l => flat_map pcalls l
  end.
(** Any two calls from different iterations of a parallel loop satisfy [P]. *)
Fixpoint par_calls {A} (P : A -> A -> Prop) (t : ptree A) : Prop :=
  match t with
  | Pcalls _ => True
  | Pseq t1 t2 => par_calls P t1 /\ par_calls P t2
  | Ppar l => ForallOrdPairs (fun t1 t2 => forall x y, In x (pcalls t1) -> In y (pcalls t2) -> P x y) l /\
      (fix go l := match l with [] => True | t :: l' => par_calls P t /\ go l' end) l
  end.

(** The calls of [pre] and of [post] in a traversal: the block, its number and
    the numbers of its row and column clusters. *)
Definition bpres {K : ofops} (t : ptree (blcall K)) : list (block K * nat * nat * nat) :=
  flat_map (fun k => match k with BPre x n rn cn _ => [(x, n, rn, cn)] | BPost _ _ _ _ _ => [] end) (pcalls t).
Definition bposts {K : ofops} (t : ptree (blcall K)) : list (block K * nat * nat * nat) :=
  flat_map (fun k => match k with BPre _ _ _ _ _ => [] | BPost x n rn cn _ => [(x, n, rn, cn)] end) (pcalls t).
Definition call_block {K : ofops} (k : blcall K) : block K := match k with BPre x _ _ _ _ | BPost x _ _ _ _ => x end.
(** Clusters without common indices. *)
Definition apart_cl {K : ofops} (u v : cluster K) : Prop :=
  c_off u + c_size u <= c_off v \/ c_off v + c_size v <= c_off u.
