(** * Vocabulary for the construction of H2-matrices *)
From Coq Require Import Arith Lia List Bool.
From Verif Require Import Fld Ord Prog Arr View Spec Cluster Block Rkmatrix Hmatrix HmSpec Clusterbasis CbSpec CbmSpec H2matrix H2Spec.
Import ListNotations.

Section Spec.
Context {K : fops} {G : ofops}.
Local Notation h2x := (h2matrix G).
Local Notation cbx := (cbasis G).

(** The matrices of the leaves, in the order of the tree *)
Fixpoint h2mats (h : h2x) : list mat :=
  match h with
  | H2 _ _ u f son _ _ _ =>
      (match u with Some A => [A] | None => [] end) ++ (match f with Some F => [F] | None => [] end) ++
      (match son with Some l => flat_map h2mats l | None => [] end)
  end.
(** All submatrices, and the leaves *)
Fixpoint h2nodes (h : h2x) : list h2x :=
  match h with H2 _ _ _ _ son _ _ _ => h :: match son with Some l => flat_map h2nodes l | None => [] end end.
Fixpoint h2leaves (h : h2x) : list h2x :=
  match h with
  | H2 _ _ _ _ None _ _ _ => [h]
  | H2 _ _ _ _ (Some l) _ _ _ => flat_map h2leaves l
  end.
(** [desc] is the number of submatrices in every node. *)
Definition h2desc_ok (h : h2x) : Prop := forall s, In s (h2nodes h) -> h2_desc s = length (h2nodes s).

(** The parts into which a basis is divided: itself, or its sons *)
Definition bsplit (cb : cbx) (l : list cbx) : Prop := l = [cb] \/ (cb_son cb <> [] /\ l = cb_son cb).
(** The structure of an H2-matrix as it is set up by the constructors: a leaf has a coupling matrix of
    the ranks of its bases, or a dense matrix of the sizes of its clusters, or no matrix; the sons
    belong to parts of the row basis and parts of the column basis and are stored by columns. *)
Inductive h2fit : h2x -> Prop :=
| h2fit_u rb cb A ds : mrows A = cb_k rb -> mcols A = cb_k cb -> h2fit (H2 rb cb (Some A) None None 0 0 ds)
| h2fit_f rb cb F ds : mrows F = cb_size rb -> mcols F = cb_size cb -> h2fit (H2 rb cb None (Some F) None 0 0 ds)
| h2fit_zero rb cb ds : h2fit (H2 rb cb None None None 0 0 ds)
| h2fit_super rb cb l R C ds :
    bsplit rb R -> bsplit cb C -> length l = length R * length C ->
    (forall i j s, i < length R -> j < length C -> nth_error l (i + j * length R) = Some s ->
       nth_error R i = Some (h2_rb s) /\ nth_error C j = Some (h2_cb s) /\ h2fit s) ->
    h2fit (H2 rb cb None None (Some l) (length R) (length C) ds).

(** Same tree with the same kinds of leaves *)
Inductive h2sim : h2x -> h2x -> Prop :=
| h2sim_u rb cb A ds rb' cb' A' ds' : h2sim (H2 rb cb (Some A) None None 0 0 ds) (H2 rb' cb' (Some A') None None 0 0 ds')
| h2sim_f rb cb F ds rb' cb' F' ds' : h2sim (H2 rb cb None (Some F) None 0 0 ds) (H2 rb' cb' None (Some F') None 0 0 ds')
| h2sim_zero rb cb ds rb' cb' ds' : h2sim (H2 rb cb None None None 0 0 ds) (H2 rb' cb' None None None 0 0 ds')
| h2sim_super rb cb l rs cs ds rb' cb' l' ds' : Forall2 h2sim l l' ->
    h2sim (H2 rb cb None None (Some l) rs cs ds) (H2 rb' cb' None None (Some l') rs cs ds').

(** The matrices of the leaves and the matrices [X] (those of the bases, for example) own storage, and
    no two of them the same block. *)
Definition h2own (m : mem K) (h : h2x) (X : list mat) : Prop :=
  Forall (matown m) (h2mats h ++ X) /\ NoDup (map mblk (h2mats h ++ X)).

(** What identifies a leaf: its clusters and whether it has a coupling matrix; and what is expected for a
    leaf of a block tree *)
Definition h2key (h : h2x) := (cb_t (h2_rb h), cb_t (h2_cb h), match h2_u h with Some _ => true | None => false end, match h2_f h with Some _ => true | None => false end).
Definition b2key (b : block G) := (b_rc b, b_cc b, b_a b, negb (b_a b)).

(** V_t^* D W_s *)
Definition gal (M : cbx -> nat -> nat -> K) (rb cb : cbx) (D : nat -> nat -> K) (r c : nat) : K :=
  sum (cb_size rb) (fun p => sum (cb_size cb) (fun q => fconj (M rb p r) * D p q * M cb q c)%F).
(** The H2-matrix [h] contains the projection of the matrix [D], rows and columns numbered as in the
    clusters: dense leaves contain the entries of [D], uniform leaves the matrix [V_t^* D|_{t x s} W_s]. *)
Inductive h2proj (M : cbx -> nat -> nat -> K) (m : mem K) : h2x -> (nat -> nat -> K) -> Prop :=
| h2proj_u rb cb A ds D : mval m A (gal M rb cb D) -> h2proj M m (H2 rb cb (Some A) None None 0 0 ds) D
| h2proj_f rb cb F ds D : mval m F D -> h2proj M m (H2 rb cb None (Some F) None 0 0 ds) D
| h2proj_super rb cb l rsons csons ds hs ws D :
    length l = rsons * csons -> nsum rsons hs = cb_size rb -> nsum csons ws = cb_size cb ->
    (forall i j s, i < rsons -> j < csons -> nth_error l (i + j * rsons) = Some s ->
       h2rows s = hs i /\ h2cols s = ws j) ->
    (forall i j s, i < rsons -> j < csons -> nth_error l (i + j * rsons) = Some s ->
       h2proj M m s (fun p q => D (nsum i hs + p) (nsum j ws + q))) ->
    h2proj M m (H2 rb cb None None (Some l) rsons csons ds) D.

(** The H-matrix [h] has the structure of the H2-matrix [h2]: low-rank leaves where [h2] has uniform ones *)
Inductive h2hm : h2x -> hmatrix G -> Prop :=
| h2hm_u rb cb A ds r ds' : h2hm (H2 rb cb (Some A) None None 0 0 ds) (HM (cb_t rb) (cb_t cb) (Some r) None None 0 0 ds')
| h2hm_f rb cb F ds f ds' : h2hm (H2 rb cb None (Some F) None 0 0 ds) (HM (cb_t rb) (cb_t cb) None (Some f) None 0 0 ds')
| h2hm_super rb cb l rs cs ds l' ds' : length l = rs * cs -> Forall2 h2hm l l' ->
    h2hm (H2 rb cb None None (Some l) rs cs ds) (HM (cb_t rb) (cb_t cb) None None (Some l') rs cs ds').
End Spec.
