(** * Vocabulary for H-matrices *)
From Coq Require Import Arith Lia List Bool.
From Verif Require Import Fld Ord Prog Arr View Spec Cluster Block Rkmatrix RkSpec Hmatrix.
Import ListNotations.

(** [h 0 + ... + h (n-1)] *)
Fixpoint nsum (n : nat) (h : nat -> nat) : nat := match n with O => 0 | S n' => nsum n' h + h n' end.

Section Spec.
Context {K : fops} {G : ofops}.

(** The H-matrix [h] represents the matrix [D], rows and columns numbered as in the clusters: a
    leaf is a low-rank matrix or a dense matrix; otherwise the sons, stored by columns, form a
    block matrix with row heights [hs] and column widths [ws] that add up to the sizes of the
    clusters. *)
Inductive hrep (m : mem K) : hmatrix G -> (nat -> nat -> K) -> Prop :=
| hrep_rk rc cc r ds D :
    mrows (rk_A r) = csz rc -> mrows (rk_B r) = csz cc -> rkrep m r D ->
    hrep m (HM rc cc (Some r) None None 0 0 ds) D
| hrep_full rc cc f ds D :
    mrows f = csz rc -> mcols f = csz cc -> mval m f D ->
    hrep m (HM rc cc None (Some f) None 0 0 ds) D
| hrep_super rc cc l rsons csons ds hs ws D :
    0 < rsons -> 0 < csons -> length l = rsons * csons ->
    nsum rsons hs = csz rc -> nsum csons ws = csz cc ->
    (forall i j s, i < rsons -> j < csons -> nth_error l (i + j * rsons) = Some s -> hrows s = hs i /\ hcols s = ws j) ->
    (forall i j s, i < rsons -> j < csons -> nth_error l (i + j * rsons) = Some s ->
       hrep m s (fun p q => D (nsum i hs + p) (nsum j ws + q))) ->
    hrep m (HM rc cc None None (Some l) rsons csons ds) D.

(** The lower half of the H-matrix [h] represents the lower half of the matrix [D]: diagonal
    blocks are treated the same way, blocks below the diagonal represent blocks of [D].  Nothing
    is assumed about blocks above the diagonal except for their sizes. *)
Inductive hlow (m : mem K) : hmatrix G -> (nat -> nat -> K) -> Prop :=
| hlow_full rc f ds D :
    mrows f = csz rc -> mcols f = csz rc ->
    (forall p q, q <= p < csz rc -> get m (ma f p q) = Val (D p q)) ->
    hlow m (HM rc rc None (Some f) None 0 0 ds) D
| hlow_super rc l n ds hs D :
    0 < n -> length l = n * n -> nsum n hs = csz rc -> cp_sons rc = n ->
    (forall j t, nth_error (c_sons (cp_c rc)) j = Some t -> c_size t = hs j) ->
    (forall i j s, i < n -> j < n -> nth_error l (i + j * n) = Some s -> hrows s = hs i /\ hcols s = hs j) ->
    (forall j s, j < n -> nth_error l (j + j * n) = Some s -> hlow m s (fun p q => D (nsum j hs + p) (nsum j hs + q))) ->
    (forall i j s, j < i < n -> nth_error l (i + j * n) = Some s -> hrep m s (fun p q => D (nsum i hs + p) (nsum j hs + q))) ->
    hlow m (HM rc rc None None (Some l) n n ds) D.

(** The hermitian matrix with the lower half of [D]. *)
Definition herm_of (D : nat -> nat -> K) (p q : nat) : K := if q <=? p then D p q else fconj (D q p).

(** The cells of the leaves of an H-matrix. *)
Inductive inh : hmatrix G -> addr -> Prop :=
| inh_r h r a : hm_r h = Some r -> inrk r a -> inh h a
| inh_f h f a : hm_f h = Some f -> inm f a -> inh h a
| inh_son h l s a : hm_son h = Some l -> In s l -> inh s a -> inh h a.

(** The memory blocks owned by the leaves, in the order of the tree. *)
Fixpoint hblocks (h : hmatrix G) : list nat :=
  match h with
  | HM _ _ r f son _ _ _ =>
      (match r with Some r => [mblk (rk_A r); mblk (rk_B r)] | None => [] end) ++
      (match f with Some f => [mblk f] | None => [] end) ++
      (match son with Some l => flat_map hblocks l | None => [] end)
  end.

(** All nodes of an H-matrix, father first. *)
Fixpoint hnodes (h : hmatrix G) : list (hmatrix G) :=
  match h with
  | HM _ _ _ _ son _ _ _ => h :: match son with Some l => flat_map hnodes l | None => [] end
  end.

(** The structure of an H-matrix as it is set up by the constructors, without regard to the
    entries: each leaf owns its storage. *)
Inductive hstr (m : mem K) : hmatrix G -> Prop :=
| hstr_rk rc cc r ds : mrows (rk_A r) = csz rc -> mrows (rk_B r) = csz cc -> rkown m r -> hstr m (HM rc cc (Some r) None None 0 0 ds)
| hstr_full rc cc f ds : mrows f = csz rc -> mcols f = csz cc -> mown f = true -> mblk f < next m -> mwf f -> malloc m f ->
    hstr m (HM rc cc None (Some f) None 0 0 ds)
| hstr_super rc cc l rsons csons ds hs ws :
    0 < rsons -> 0 < csons -> length l = rsons * csons ->
    nsum rsons hs = csz rc -> nsum csons ws = csz cc ->
    (forall i j s, i < rsons -> j < csons -> nth_error l (i + j * rsons) = Some s -> hrows s = hs i /\ hcols s = ws j) ->
    (forall s, In s l -> hstr m s) ->
    hstr m (HM rc cc None None (Some l) rsons csons ds).
(** ... and different leaves use different storage. *)
Definition hown (m : mem K) (h : hmatrix G) : Prop := hstr m h /\ NoDup (hblocks h).

(** [desc] is the number of submatrices in every node. *)
Definition hdesc_ok (h : hmatrix G) : Prop := forall s, In s (hnodes h) -> hm_desc s = length (hnodes s).

(** The ranks of the low-rank leaves, in the order of the tree. *)
Fixpoint hranks (h : hmatrix G) : list nat :=
  match h with
  | HM _ _ r _ son _ _ _ =>
      (match r with Some r => [rk_k r] | None => [] end) ++ (match son with Some l => flat_map hranks l | None => [] end)
  end.

(** The leaves. *)
Fixpoint hleaves (h : hmatrix G) : list (hmatrix G) :=
  match h with
  | HM _ _ _ _ None _ _ _ => [h]
  | HM _ _ _ _ (Some l) _ _ _ => flat_map hleaves l
  end.

(** The clusters of the submatrices lie at the right places: the first index of a submatrix of
    [h] is the first index of [h] plus the sizes of the blocks above or to the left. *)
Inductive hplaced : hmatrix G -> Prop :=
| hplaced_leaf h : hm_son h = None -> hplaced h
| hplaced_super rc cc l rsons csons ds hs ws :
    (forall i j s, i < rsons -> j < csons -> nth_error l (i + j * rsons) = Some s ->
       hrows s = hs i /\ hcols s = ws j /\
       c_off (cp_c (hm_rc s)) = c_off (cp_c rc) + nsum i hs /\ c_off (cp_c (hm_cc s)) = c_off (cp_c cc) + nsum j ws /\ hplaced s) ->
    hplaced (HM rc cc None None (Some l) rsons csons ds).
(** Two clusters have no index in common. *)
Definition apart (c d : cptr G) : Prop :=
  c_off (cp_c c) + csz c <= c_off (cp_c d) \/ c_off (cp_c d) + csz d <= c_off (cp_c c).

(** What identifies a leaf: its clusters and its kind, i.e. low-rank with a certain rank or dense;
    and what is expected for a leaf of a block tree if low-rank leaves are created with rank [k]. *)
Definition hkey (h : hmatrix G) := (hm_rc h, hm_cc h, match hm_r h with Some r => Some (rk_k r) | None => None end).
Definition bkey (k : nat) (b : block G) := (b_rc b, b_cc b, if b_a b then Some k else None).

(** Square matrices with the same splitting of rows and columns, dense leaves on the diagonal. *)
Inductive hsquare : hmatrix G -> Prop :=
| hsquare_full rc f ds : hsquare (HM rc rc None (Some f) None 0 0 ds)
| hsquare_super rc l n ds hs :
    (forall i j s, i < n -> j < n -> nth_error l (i + j * n) = Some s -> hrows s = hs i /\ hcols s = hs j) ->
    (forall j s, j < n -> nth_error l (j + j * n) = Some s -> hsquare s) ->
    hsquare (HM rc rc None None (Some l) n n ds).

(** Same clusters and same splitting, leaves of the same kind. *)
Inductive hsim : hmatrix G -> hmatrix G -> Prop :=
| hsim_rk rc cc r r' ds ds' : hsim (HM rc cc (Some r) None None 0 0 ds) (HM rc cc (Some r') None None 0 0 ds')
| hsim_full rc cc f f' ds ds' : hsim (HM rc cc None (Some f) None 0 0 ds) (HM rc cc None (Some f') None 0 0 ds')
| hsim_super rc cc l l' rsons csons ds ds' : Forall2 hsim l l' ->
    hsim (HM rc cc None None (Some l) rsons csons ds) (HM rc cc None None (Some l') rsons csons ds').

(** The index array [idx], starting from [off], contains the permutation [g] of [0, ..., n-1]. *)
Definition perm_at (idx : arr nat) (off n : nat) (g : nat -> nat) : Prop :=
  (forall i, i < n -> aget idx (off + i) = Ok (g i)) /\
  (forall i, i < n -> g i < n) /\ (forall i j, i < n -> j < n -> g i = g j -> i = j).
(** [h] represents the matrix [A] with respect to the original numbering of the unknowns: position
    [i] of the row cluster belongs to the index [gr i], position [j] of the column cluster to [gc j]. *)
Definition hrepi (m : mem K) (ridx cidx : arr nat) (h : hmatrix G) (A : nat -> nat -> K) : Prop :=
  exists gr gc, perm_at ridx (c_off (cp_c (hm_rc h))) (hrows h) gr /\ perm_at cidx (c_off (cp_c (hm_cc h))) (hcols h) gc /\
    hrep m h (fun i j => A (gr i) (gc j)).

(** The same for a hermitian matrix [A] represented by its lower half. *)
Definition hlowi (m : mem K) (idx : arr nat) (h : hmatrix G) (A : nat -> nat -> K) : Prop :=
  exists g D, perm_at idx (c_off (cp_c (hm_rc h))) (hrows h) g /\ hlow m h D /\
    forall i j, i < hrows h -> j < hrows h -> A (g i) (g j) = herm_of D i j.
End Spec.
