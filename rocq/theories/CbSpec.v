(** * Vocabulary for cluster bases *)
From Coq Require Import Arith Lia List Bool.
From Verif Require Import Fld Ord Prog Arr View Spec Cluster Block Hmatrix HmSpec Clusterbasis.
Import ListNotations.

(** [f] of the [i]-th element of a list, zero beyond its end *)
Definition at_ {A} (f : A -> nat) (l : list A) (i : nat) : nat := nth i (map f l) 0.

(** The first [n] cells given by an address function, and an injective numbering *)
Definition cells (out : nat -> addr) (n : nat) (a : addr) : Prop := exists p, p < n /\ a = out p.
Definition injn {A} (out : nat -> A) (n : nat) : Prop := forall p q, p < n -> q < n -> out p = out q -> p = q.
(** Entries [off], ..., [off+n-1] of the array of indices are [ip 0], ..., and less than [dim]. *)
Definition idx_at (idx : arr nat) (off n : nat) (ip : nat -> nat) (dim : nat) : Prop :=
  forall p, p < n -> aget idx (off + p) = Ok (ip p) /\ ip p < dim.

Section Spec.
Context {K : fops} {G : ofops}.
Local Notation cbx := (cbasis G).

(** The matrix stored in [A], zero outside. *)
Definition mfun (m : mem K) (A : mat) (i j : nat) : K :=
  if (i <? mrows A) && (j <? mcols A) then match get m (ma A i j) with Val v => v | _ => f0 end else f0.

(** Matrices with [n] rows each on top of each other. *)
Fixpoint stack (l : list (nat * (nat -> nat -> K))) (p q : nat) : K :=
  match l with
  | [] => f0
  | (n, F) :: l' => if p <? n then F p q else stack l' (p - n) q
  end.

(** The matrix [V_t] represented by a cluster basis: the leaf matrix, or the products of the sons'
    matrices and transfer matrices on top of each other. *)
Fixpoint cbmat (m : mem K) (cb : cbx) : nat -> nat -> K :=
  match cb with
  | CB _ _ _ _ V _ [] _ => mfun m V
  | CB _ _ _ _ _ _ l _ =>
      stack (map (fun s => (cb_size s, fun p q => sum (cb_k s) (fun r => cbmat m s p r * mfun m (cb_E s) r q)%F)) l)
  end.

(** All clusters [c] of the basis with the positions of their coefficients in a coefficient vector
    and of their first row: the coefficients of a cluster are followed by those of its sons, or by
    the entries of the vector if there are no sons. *)
Fixpoint cbnodes (cb : cbx) : list (nat * nat * cbx) :=
  (0, 0, cb) ::
  (fix go l o r := match l with
   | [] => []
   | s :: l' => map (fun '(o', r', c) => (o + o', r + r', c)) (cbnodes s) ++ go l' (o + cb_ktree s) (r + cb_size s)
   end) (cb_son cb) (cb_k cb) 0.

(** Consistent dimensions: leaf and transfer matrices fit to the ranks, the sons' clusters are the
    sons of the cluster, [ktree] and [kbranch] are the lengths of coefficient vectors for the tree
    and for the longest branch. *)
Inductive cbok : cbx -> Prop :=
| cbok_leaf t k V E Z : mrows V = csz t -> mcols V = k -> cbok (CB t k (k + csz t) (k + csz t) V E [] Z)
| cbok_node t k kt kb V E l Z :
    l <> [] -> (forall s, In s l -> cbok s /\ mrows (cb_E s) = cb_k s /\ mcols (cb_E s) = k) ->
    (forall i s, nth_error l i = Some s -> cp_son t i = Ok (cb_t s)) ->
    csz t = nsum (length l) (at_ cb_size l) ->
    kt = k + nsum (length l) (at_ cb_ktree l) -> kb = k + list_max (map cb_kbranch l) ->
    cbok (CB t k kt kb V E l Z).

(** The cells of the leaf matrices and of the transfer matrices used by the basis (all but the one
    of the root). *)
Inductive incb : cbx -> addr -> Prop :=
| incb_V t k kt kb V E Z a : inm V a -> incb (CB t k kt kb V E [] Z) a
| incb_E cb s a : In s (cb_son cb) -> inm (cb_E s) a -> incb cb a
| incb_son cb s a : In s (cb_son cb) -> incb s a -> incb cb a.
(** They have been initialised. *)
Definition cbinit (m : mem K) (cb : cbx) : Prop := forall a, incb cb a -> exists v, get m a = Val v.

(** The clusters lie at the right places of the index array. *)
Definition cbplaced (cb : cbx) : Prop := forall o r c, In (o, r, c) (cbnodes cb) -> cb_off c = cb_off cb + r.

(** Bases with separate matrices [V] for all clusters: their cells, dimensions and initialisation *)
Inductive invs : cbx -> addr -> Prop :=
| invs_V cb a : inm (cb_V cb) a -> invs cb a
| invs_son cb s a : In s (cb_son cb) -> invs s a -> invs cb a.
Definition vsok (cb : cbx) : Prop := forall o r c, In (o, r, c) (cbnodes cb) -> mrows (cb_V c) = cb_size c /\ mcols (cb_V c) = cb_k c.
Definition vsinit (m : mem K) (cb : cbx) : Prop := forall a, invs cb a -> exists v, get m a = Val v.

Definition cb_leaf (c : cbx) : bool := match cb_son c with [] => true | _ => false end.

(** [Y] is the forward transformation of [X] with matrices [M c]: coefficients [M c^* X|c] for each
    cluster [c] and the entries of [X] for the leaves. *)
Definition fwd_of (M : cbx -> nat -> nat -> K) (cb : cbx) (X Y : nat -> K) : Prop :=
  forall o r c, In (o, r, c) (cbnodes cb) ->
    (forall q, q < cb_k c -> Y (o + q)%nat = sum (cb_size c) (fun p => fconj (M c p q) * X (r + p)%nat)%F) /\
    (cb_leaf c = true -> forall p, p < cb_size c -> Y (o + cb_k c + p)%nat = X (r + p)%nat).

(** The backward transformation of [Y]: row [p] of the sum of all [M c Y_c], extended by zero, and of
    the parts of [Y] belonging to the leaves. *)
Definition bwd_term (M : cbx -> nat -> nat -> K) (Y : nat -> K) (p : nat) (n : nat * nat * cbx) : K :=
  let '(o, r, c) := n in
  if (r <=? p) && (p <? r + cb_size c)
  then (sum (cb_k c) (fun q => M c (p - r)%nat q * Y (o + q)%nat) +
        if cb_leaf c then Y (o + cb_k c + (p - r))%nat else f0)%F
  else f0.
Definition lsum (l : list K) : K := fold_right fadd f0 l.
Definition bwd_of (M : cbx -> nat -> nat -> K) (cb : cbx) (Y : nat -> K) (p : nat) : K :=
  lsum (map (bwd_term M Y p) (cbnodes cb)).
End Spec.
