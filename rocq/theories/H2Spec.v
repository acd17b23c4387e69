(** * Vocabulary for H2-matrices *)
From Coq Require Import Arith Lia List Bool.
From Verif Require Import Fld Ord Prog Arr View Spec Cluster Block Hmatrix HmSpec Clusterbasis CbSpec H2matrix.
Import ListNotations.

Section Spec.
Context {K : fops} {G : ofops}.
Local Notation h2x := (h2matrix G).
Local Notation cbx := (cbasis G).

(** V_t S W_s^* *)
Definition vsw (M : cbx -> nat -> nat -> K) (rb cb : cbx) (Su : nat -> nat -> K) (p q : nat) : K :=
  sum (cb_k rb) (fun r => sum (cb_k cb) (fun c => M rb p r * Su r c * fconj (M cb q c))%F).

(** The H2-matrix [h] represents the matrix [D], rows and columns numbered as in the clusters: [M c]
    is the matrix of the basis [c].  A uniform leaf with coupling matrix [S] represents V_t S W_s^*,
    a dense leaf its matrix, a leaf without matrices zero; otherwise the sons, stored by columns,
    form a block matrix with row heights [hs] and column widths [ws]. *)
Inductive h2rep (M : cbx -> nat -> nat -> K) (m : mem K) : h2x -> (nat -> nat -> K) -> Prop :=
| h2rep_u rb cb A Su ds D :
    mrows A = cb_k rb -> mcols A = cb_k cb -> mval m A Su ->
    (forall p q, p < cb_size rb -> q < cb_size cb -> D p q = vsw M rb cb Su p q) ->
    h2rep M m (H2 rb cb (Some A) None None 0 0 ds) D
| h2rep_f rb cb F ds D :
    mrows F = cb_size rb -> mcols F = cb_size cb -> mval m F D ->
    h2rep M m (H2 rb cb None (Some F) None 0 0 ds) D
| h2rep_zero rb cb ds D :
    (forall p q, p < cb_size rb -> q < cb_size cb -> D p q = f0) ->
    h2rep M m (H2 rb cb None None None 0 0 ds) D
| h2rep_super rb cb l rsons csons ds hs ws D :
    0 < rsons -> 0 < csons -> length l = rsons * csons ->
    nsum rsons hs = cb_size rb -> nsum csons ws = cb_size cb ->
    (forall i j s, i < rsons -> j < csons -> nth_error l (i + j * rsons) = Some s -> h2rows s = hs i /\ h2cols s = ws j) ->
    (forall i j s, i < rsons -> j < csons -> nth_error l (i + j * rsons) = Some s ->
       h2rep M m s (fun p q => D (nsum i hs + p) (nsum j ws + q))) ->
    h2rep M m (H2 rb cb None None (Some l) rsons csons ds) D.

(** Part [i] of [n] parts of a basis: its [i]-th son, or the basis itself if there are no sons *)
Definition part_of (cb : cbx) (n i : nat) (s : cbx) : Prop :=
  (cb_son cb = [] /\ n = 1 /\ s = cb) \/ (n = length (cb_son cb) /\ nth_error (cb_son cb) i = Some s).
(** The structure fits to the bases: a submatrix is split into submatrices for the sons of its bases, an
    undivided side belongs to a leaf; dense matrices only occur for two leaves.  This holds for
    H2-matrices constructed for block trees of [build_strict_block]. *)
Inductive h2strict : h2x -> Prop :=
| h2strict_u rb cb A ds : h2strict (H2 rb cb (Some A) None None 0 0 ds)
| h2strict_f rb cb F ds : cb_son rb = [] -> cb_son cb = [] -> h2strict (H2 rb cb None (Some F) None 0 0 ds)
| h2strict_zero rb cb ds : h2strict (H2 rb cb None None None 0 0 ds)
| h2strict_super rb cb l rsons csons ds :
    (forall i j s, i < rsons -> j < csons -> nth_error l (i + j * rsons) = Some s ->
       part_of rb rsons i (h2_rb s) /\ part_of cb csons j (h2_cb s) /\ h2strict s) ->
    h2strict (H2 rb cb None None (Some l) rsons csons ds).

(** The cells of the leaves. *)
Inductive inh2 : h2x -> addr -> Prop :=
| inh2_u h u a : h2_u h = Some u -> inm u a -> inh2 h a
| inh2_f h f a : h2_f h = Some f -> inm f a -> inh2 h a
| inh2_son h l s a : h2_son h = Some l -> In s l -> inh2 s a -> inh2 h a.
(** The cells of an H2-matrix and its bases. *)
Definition inh2b (h : h2x) (a : addr) : Prop := inh2 h a \/ incb (h2_rb h) a \/ incb (h2_cb h) a.

(** Bases that can be used for transformations. *)
Definition cbready (m : mem K) (cb : cbx) : Prop := cbok cb /\ cbplaced cb /\ cbinit m cb.

(** The H2-matrix [h] represents the matrix [A] with respect to the original numbering. *)
Definition h2repi (m : mem K) (ridx cidx : arr nat) (h : h2x) (A : nat -> nat -> K) : Prop :=
  exists gr gc, perm_at ridx (cb_off (h2_rb h)) (h2rows h) gr /\ perm_at cidx (cb_off (h2_cb h)) (h2cols h) gc /\
    h2rep (cbmat m) m h (fun i j => A (gr i) (gc j)).

(** The same with a structure and bases that can be used for products. *)
Definition h2ready (m : mem K) (ridx cidx : arr nat) (h : h2x) (A : nat -> nat -> K) : Prop :=
  h2repi m ridx cidx h A /\ h2strict h /\ cbready m (h2_rb h) /\ cbready m (h2_cb h).

(** All leaves have matrices: none of them has been set to zero by omitting the matrix. *)
Inductive h2nz : h2x -> Prop :=
| h2nz_u rb cb A ds : h2nz (H2 rb cb (Some A) None None 0 0 ds)
| h2nz_f rb cb F ds : h2nz (H2 rb cb None (Some F) None 0 0 ds)
| h2nz_super rb cb l rsons csons ds : (forall s, In s l -> h2nz s) -> h2nz (H2 rb cb None None (Some l) rsons csons ds).

(** The lower half of the H2-matrix [h] represents the lower half of the matrix [D]:
    diagonal blocks are dense leaves, only their lower halves matter, or divided in the same way on
    both sides; the strict upper half need not represent anything. *)
Inductive h2low (M : cbx -> nat -> nat -> K) (m : mem K) : h2x -> (nat -> nat -> K) -> Prop :=
| h2low_f rb cb F ds D :
    cb_t rb = cb_t cb -> mrows F = cb_size rb -> mcols F = cb_size rb ->
    (forall p q, q <= p < cb_size rb -> get m (ma F p q) = Val (D p q)) ->
    cb_son rb = [] -> cb_son cb = [] ->
    h2low M m (H2 rb cb None (Some F) None 0 0 ds) D
| h2low_super rb cb l n ds hs D :
    cb_t rb = cb_t cb -> 0 < n -> length l = n * n -> nsum n hs = cb_size rb ->
    (forall i j s, i < n -> j < n -> nth_error l (i + j * n) = Some s -> h2rows s = hs i /\ h2cols s = hs j /\
       part_of rb n i (h2_rb s) /\ part_of cb n j (h2_cb s)) ->
    (forall j s, j < n -> nth_error l (j + j * n) = Some s -> h2low M m s (fun p q => D (nsum j hs + p) (nsum j hs + q))) ->
    (forall i j s, j < i < n -> nth_error l (i + j * n) = Some s ->
       h2strict s /\ h2nz s /\ h2rep M m s (fun p q => D (nsum i hs + p) (nsum j hs + q))) ->
    h2low M m (H2 rb cb None None (Some l) n n ds) D.

(** The lower half of [h] represents the hermitian matrix [A] with respect to the original numbering;
    its bases can be used for products. *)
Definition h2symready (m : mem K) (idx : arr nat) (h : h2x) (A : nat -> nat -> K) : Prop :=
  (exists g D, perm_at idx (cb_off (h2_rb h)) (h2rows h) g /\ h2low (cbmat m) m h D /\
    forall i j, i < h2rows h -> j < h2rows h -> A (g i) (g j) = herm_of D i j) /\
  cbready m (h2_rb h) /\ cbready m (h2_cb h).
End Spec.
