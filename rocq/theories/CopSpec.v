(** * Vocabulary for cluster operators and orthogonal cluster bases *)
From Coq Require Import Arith Lia List Bool.
From Verif Require Import Fld Ord Prog Arr View Spec Cluster Block Hmatrix HmSpec Chol Qr Clusterbasis CbSpec CbmSpec Clusterop.
Import ListNotations.

Section Spec.
Context {K : fops} {G : ofops}.
Local Notation cbx := (cbasis G).
Local Notation cox := (clusterop G).

(** All matrices of a cluster operator *)
Fixpoint comats (co : cox) : list mat :=
  match co with CO _ _ _ C l => C :: flat_map comats l end.
Definition omats (o : option cox) : list mat := match o with Some co => comats co | None => [] end.
(** The part of an operator belonging to a son *)
Definition oson (o : option cox) (i : nat) : option cox := match o with Some co => nth_error (co_son co) i | None => None end.

(** An operator for the clusters of a basis: its tree is that of the basis, and its matrices have the
    announced dimensions. *)
Inductive cofor : cbx -> cox -> Prop :=
| cofor_intro cb co : mrows (co_C co) = co_krow co -> mcols (co_C co) = co_kcol co -> length (co_son co) = length (cb_son cb) ->
    (forall i s c, nth_error (cb_son cb) i = Some s -> nth_error (co_son co) i = Some c -> cofor s c) -> cofor cb co.

(** The first [k] columns of [V] are orthonormal: [V^* V = I]. *)
Definition orthonormal (n k : nat) (V : nat -> nat -> K) : Prop :=
  forall i j, i < k -> j < k -> sum n (fun p => fconj (V p i) * V p j)%F = idf i j.
(** No nonzero vector is treated as zero by the orthogonalisation. *)
Definition exact_zero (O : qops K) : Prop :=
  forall n (e : nat -> K), tiny O (dot n e e) = true -> forall i, i < n -> e i = f0.

(** Number of rows of the matrix factorised for a cluster: its size or the sum of its sons' ranks *)
Definition cb_mm (cb : cbx) : nat := match cb_son cb with [] => cb_size cb | l => nsum (length l) (at_ cb_k l) end.

(** [cb'] in memory [m'] is an orthogonal version of [cb] in [m]: it has the same clusters, and for
    each cluster the matrix has orthonormal columns, its rank is the smaller of the number of rows
    and the old rank, and the old matrix is the product [V R] of the new one with a matrix [R]
    stored in the operator [o] if there is one.  ([ex] says whether the products are exact.) *)
Inductive orth_of (ex : Prop) (m m' : mem K) : cbx -> cbx -> option cox -> (nat -> nat -> K) -> Prop :=
| orth_of_intro cb cb' o R :
    cb_t cb' = cb_t cb -> length (cb_son cb') = length (cb_son cb) ->
    cb_k cb' = Nat.min (cb_mm cb') (cb_k cb) ->
    orthonormal (cb_size cb) (cb_k cb') (cbmat m' cb') ->
    (ex -> forall p q, p < cb_size cb -> q < cb_k cb -> cbmat m cb p q = sum (cb_k cb') (fun r => cbmat m' cb' p r * R r q)%F) ->
    (forall co, o = Some co -> co_krow co = cb_k cb' /\ co_kcol co = cb_k cb /\ mval m' (co_C co) R) ->
    (forall i s s', nth_error (cb_son cb) i = Some s -> nth_error (cb_son cb') i = Some s' ->
       exists Ri, orth_of ex m m' s s' (oson o i) Ri) ->
    orth_of ex m m' cb cb' o R.

(** The operator [co] in memory [m'] holds weights for the basis: for each cluster the matrix of the
    basis is the product [Q W] of a matrix with orthonormal columns and the stored one. *)
Inductive weight_of (ex : Prop) (m m' : mem K) : cbx -> cox -> Prop :=
| weight_of_intro cb co W Qm :
    co_krow co = Nat.min (match cb_son cb with [] => cb_size cb | _ => nsum (length (co_son co)) (at_ co_krow (co_son co)) end) (cb_k cb) ->
    co_kcol co = cb_k cb -> mval m' (co_C co) W -> orthonormal (cb_size cb) (co_krow co) Qm ->
    (ex -> forall p q, p < cb_size cb -> q < cb_k cb -> cbmat m cb p q = sum (co_krow co) (fun r => Qm p r * W r q)%F) ->
    length (co_son co) = length (cb_son cb) ->
    (forall i s c, nth_error (cb_son cb) i = Some s -> nth_error (co_son co) i = Some c -> weight_of ex m m' s c) ->
    weight_of ex m m' cb co.

(** An operator suited for the products of two bases: its clusters are those of both bases as far as its
    tree goes, and where it ends at least one of the bases ends. *)
Inductive prfor : cbx -> cbx -> cox -> Prop :=
| prfor_intro cb1 cb2 pr :
    cb_t cb1 = co_t pr -> cb_t cb2 = co_t pr -> mrows (co_C pr) = co_krow pr -> mcols (co_C pr) = co_kcol pr ->
    (co_son pr = [] -> cb_son cb1 = [] \/ cb_son cb2 = []) ->
    (co_son pr <> [] -> length (cb_son cb1) = length (co_son pr) /\ length (cb_son cb2) = length (co_son pr)) ->
    (forall i s1 s2 p, nth_error (cb_son cb1) i = Some s1 -> nth_error (cb_son cb2) i = Some s2 -> nth_error (co_son pr) i = Some p -> prfor s1 s2 p) ->
    prfor cb1 cb2 pr.
(** The operator holds the products [V^* W] of the matrices of two bases for each of its clusters. *)
Inductive prod_of (m m' : mem K) : cbx -> cbx -> cox -> Prop :=
| prod_of_intro cb1 cb2 pr :
    co_krow pr = cb_k cb1 -> co_kcol pr = cb_k cb2 ->
    mval m' (co_C pr) (fun i j => sum (cb_size cb1) (fun p => fconj (cbmat m cb1 p i) * cbmat m cb2 p j)%F) ->
    (forall i s1 s2 p, nth_error (cb_son cb1) i = Some s1 -> nth_error (cb_son cb2) i = Some s2 -> nth_error (co_son pr) i = Some p -> prod_of m m' s1 s2 p) ->
    prod_of m m' cb1 cb2 pr.
End Spec.
