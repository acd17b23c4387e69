(** * Vocabulary for the construction of cluster bases *)
From Coq Require Import Arith Lia List Bool.
From Verif Require Import Fld Ord Prog Arr View Spec Cluster Block Hmatrix HmSpec Clusterbasis CbSpec.
Import ListNotations.

Section Spec.
Context {K : fops} {G : ofops}.
Local Notation cbx := (cbasis G).

(** A matrix with storage of its own *)
Definition matown (m : mem K) (A : mat) : Prop := mown A = true /\ mblk A < next m /\ mwf A /\ malloc m A.
(** The matrices [Ls] own storage, no two of them the same block, and no other block satisfying [D]
    is in use.  [D] holds for all blocks to be allocated in the future. *)
Definition lm (D : nat -> Prop) (m : mem K) (Ls : list mat) : Prop :=
  Forall (matown m) Ls /\ NoDup (map mblk Ls) /\ (forall b, next m <= b -> D b) /\
  (forall a, D (fst a) -> ~ In (fst a) (map mblk Ls) -> get m a = Free).

(** All matrices of a cluster basis: [V] and [E] of all clusters *)
Fixpoint cbmats (cb : cbx) : list mat :=
  match cb with CB _ _ _ _ V E l _ => V :: E :: flat_map cbmats l end.

(** A cluster basis and its descendants *)
Inductive cbdesc : cbx -> cbx -> Prop :=
| cbdesc_here cb : cbdesc cb cb
| cbdesc_son cb s c : In s (cb_son cb) -> cbdesc s c -> cbdesc cb c.
(** All clusters have sons in the basis or none of their sons has. *)
Definition cbfull (cb : cbx) : Prop := forall c, cbdesc cb c -> cb_son c <> [] -> cp_sons (cb_t c) = length (cb_son c).
(** Clusters with sons have no weight matrix. *)
Definition noweight (cb : cbx) : Prop := forall c, cbdesc cb c -> cb_son c <> [] -> cb_Z c = None.

(** Equal copies: [cb] in memory [m] and [cb'] in [m'] have the same clusters, ranks, leaf matrices
    and transfer matrices. *)
Inductive ceq (m m' : mem K) : cbx -> cbx -> Prop :=
| ceq_leaf t k kt kb V E Z V' E' Z' :
    mrows V' = mrows V -> mcols V' = mcols V -> mval m' V' (mfun m V) ->
    ceq m m' (CB t k kt kb V E [] Z) (CB t k kt kb V' E' [] Z')
| ceq_node t k kt kb V E l Z V' E' l' Z' :
    l <> [] -> length l' = length l ->
    (forall i s s', nth_error l i = Some s -> nth_error l' i = Some s' ->
       ceq m m' s s' /\ mrows (cb_E s') = mrows (cb_E s) /\ mcols (cb_E s') = mcols (cb_E s) /\ mval m' (cb_E s') (mfun m (cb_E s))) ->
    ceq m m' (CB t k kt kb V E l Z) (CB t k kt kb V' E' l' Z').

(** Same tree of clusters *)
Inductive cshape : cbx -> cbx -> Prop :=
| cshape_intro cb cb' : cb_t cb' = cb_t cb -> length (cb_son cb') = length (cb_son cb) ->
    (forall i s s', nth_error (cb_son cb) i = Some s -> nth_error (cb_son cb') i = Some s' -> cshape s s') -> cshape cb cb'.
(** All ranks are zero. *)
Definition czero (cb : cbx) : Prop := forall c, cbdesc cb c -> cb_k c = 0.

(** The basis covers the whole cluster tree below [t]. *)
Inductive cbcover : cptr G -> cbx -> Prop :=
| cbcover_intro cb : length (cb_son cb) = cp_sons (cb_t cb) ->
    (forall i s, nth_error (cb_son cb) i = Some s -> exists t', cp_son (cb_t cb) i = Ok t' /\ cbcover t' s) -> cbcover (cb_t cb) cb.
End Spec.
