(** * Vocabulary for operations that change H-matrices *)
From Coq Require Import Arith Lia List Bool.
From Verif Require Import Fld Ord Prog Arr View Spec Cluster Block Rkmatrix RkSpec Hmatrix HmSpec.
Import ListNotations.

Section Spec.
Context {K : fops} {G : ofops}.
Local Notation hmx := (hmatrix G).

(** The storage of an H-matrix: the blocks of the factors of low-rank leaves, the cells of dense
    leaves (which may be parts of other matrices). *)
Inductive hfp : hmx -> addr -> Prop :=
| hfp_r h r a : hm_r h = Some r -> rkblk r a -> hfp h a
| hfp_f h f a : hm_f h = Some f -> inm f a -> hfp h a
| hfp_son h l s a : hm_son h = Some l -> In s l -> hfp s a -> hfp h a.

(** [h] can be changed: low-rank leaves own their factors, different leaves use different storage;
    leaves are not empty. *)
Inductive hmut (m : mem K) : hmx -> Prop :=
| hmut_rk rc cc r ds : 0 < csz rc -> 0 < csz cc -> rkown m r -> hmut m (HM rc cc (Some r) None None 0 0 ds)
| hmut_full rc cc f ds : 0 < csz rc -> 0 < csz cc -> mwf f -> hmut m (HM rc cc None (Some f) None 0 0 ds)
| hmut_super rc cc l rs cs ds :
    (forall s, In s l -> hmut m s) ->
    (forall i k s t, nth_error l i = Some s -> nth_error l k = Some t -> i <> k -> disj (hfp s) (hfp t)) ->
    hmut m (HM rc cc None None (Some l) rs cs ds).

(** Same clusters, same splitting, leaves of the same kind, dense leaves in the same place. *)
Inductive hlike : hmx -> hmx -> Prop :=
| hlike_rk rc cc r r' ds : hlike (HM rc cc (Some r) None None 0 0 ds) (HM rc cc (Some r') None None 0 0 ds)
| hlike_full rc cc f ds : hlike (HM rc cc None (Some f) None 0 0 ds) (HM rc cc None (Some f) None 0 0 ds)
| hlike_super rc cc l l' rs cs ds : Forall2 hlike l l' ->
    hlike (HM rc cc None None (Some l) rs cs ds) (HM rc cc None None (Some l') rs cs ds).

(** The storage [F'] replaces [F]: everything else is as before, in particular what was in use is
    not changed, and nothing new remains in use apart from [F']. *)
Definition moves (m : mem K) (F F' : addr -> Prop) (m' : mem K) : Prop :=
  next m <= next m' /\
  (forall a, F' a -> F a \/ next m <= fst a) /\
  (forall a, F' a -> fst a < next m') /\
  (forall a, fst a < next m -> ~ F a -> get m' a = get m a) /\
  (forall a, F a \/ next m <= fst a -> ~ F' a -> get m' a = Free).

(** No storage *)
Definition nowhere (a : addr) : Prop := False.

(** [h] has been changed to [h'], which represents [D]: the structure is the same, and so is
    everything else in memory. *)
Definition hpost (m : mem K) (h : hmx) (D : nat -> nat -> K) (h' : hmx) (m' : mem K) : Prop :=
  hrep m' h' D /\ hmut m' h' /\ hlike h h' /\ moves m (hfp h) (hfp h') m'.

(** No block is empty. *)
Definition hpos (h : hmx) : Prop := forall s, In s (hnodes h) -> 0 < hrows s /\ 0 < hcols s.
End Spec.
