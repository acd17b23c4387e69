(** * Vocabulary for files with H-matrices *)
From Coq Require Import NArith Ascii Arith Lia Bool List.
From Verif Require Import Fld Ord Prog Arr View Spec Cluster Block Rkmatrix RkSpec Hmatrix HmSpec Hlib.
Import ListNotations.

(** [n] fits into an unsigned int. *)
Definition u32 (n : nat) : Prop := (N.of_nat n < 2 ^ 32)%N.

(** The C library prints [x] as a short line and scanning this line recovers [x] as one field. *)
Definition ft_good {K : Type} (ft : ftext K) (x : K) : Prop :=
  ~ In nl (ft_print ft x) /\ length (ft_print ft x) < 79 /\ ft_scan ft (ft_print ft x ++ [nl]) = (1, x).

(** A tree of numbers: the sizes of clusters and their parts. *)
Inductive shape := Shp (size : nat) (sons : list shape).
Definition ssize (s : shape) : nat := match s with Shp n _ => n end.

Section Spec.
Context {K : fops} {G : ofops}.

(** What is stored in an H-matrix, without regard to clusters and storage: numbers of rows and
    columns, ranks, entries and splittings. *)
Inductive hdata :=
| DRk (rows cols k : nat) (A B : nat -> nat -> K)
| DFull (rows cols : nat) (F : nat -> nat -> K)
| DSup (rows cols rsons csons : nat) (l : list hdata).
Inductive content (m : mem K) : hmatrix G -> hdata -> Prop :=
| content_rk rc cc r ds A B :
    mrows (rk_A r) = csz rc -> mrows (rk_B r) = csz cc -> mcols (rk_A r) = rk_k r -> mcols (rk_B r) = rk_k r ->
    mval m (rk_A r) A -> mval m (rk_B r) B ->
    content m (HM rc cc (Some r) None None 0 0 ds) (DRk (csz rc) (csz cc) (rk_k r) A B)
| content_full rc cc f ds F :
    mrows f = csz rc -> mcols f = csz cc -> mval m f F ->
    content m (HM rc cc None (Some f) None 0 0 ds) (DFull (csz rc) (csz cc) F)
| content_super rc cc l rsons csons ds ld :
    length l = rsons * csons -> Forall2 (content m) l ld ->
    content m (HM rc cc None None (Some l) rsons csons ds) (DSup (csz rc) (csz cc) rsons csons ld).

(** The row cluster of [h] is split as described by [R] and the column cluster as described by [C],
    in all blocks where they are split: the block [(i,j)] of a subdivided matrix belongs to the
    parts [i] of [R] and [j] of [C]. *)
Inductive hfits : hmatrix G -> shape -> shape -> Prop :=
| hfits_leaf h R C : hm_son h = None -> hrows h = ssize R -> hcols h = ssize C -> hfits h R C
| hfits_super rc cc r f l rsons csons ds Rs Cs :
    length Rs = rsons -> length Cs = csons ->
    (forall i j s u v, nth_error l (i + j * rsons) = Some s -> nth_error Rs i = Some u -> nth_error Cs j = Some v -> hfits s u v) ->
    hfits (HM rc cc r f (Some l) rsons csons ds) (Shp (csz rc) Rs) (Shp (csz cc) Cs).

(** All numbers that are written to the file fit into an unsigned int. *)
Definition hsmall (h : hmatrix G) : Prop := forall s, In s (hnodes h) ->
  u32 (hrows s) /\ u32 (hcols s) /\ u32 (hm_rsons s) /\ u32 (hm_csons s) /\ (forall r, hm_r s = Some r -> u32 (rk_k r)).
(** All entries can be printed and scanned. *)
Definition hprintable (ft : ftext K) (m : mem K) (h : hmatrix G) : Prop :=
  forall a x, inh h a -> get m a = Val x -> ft_good ft x.
(** The clusters of the submatrices are the sons of the clusters of the matrix. *)
Definition hcl_sons (h : hmatrix G) : Prop := forall s l, In s (hnodes h) -> hm_son s = Some l ->
  forall i j t, i < hm_rsons s -> nth_error l (i + j * hm_rsons s) = Some t ->
  cp_son (hm_rc s) i = Ok (hm_rc t) /\ cp_son (hm_cc s) j = Ok (hm_cc t).
(** The cluster [c] is split into [n] parts, [t] is the part [i]: the sons, or the cluster itself if
    there are no sons. *)
Definition cl_part (c : cptr G) (n i : nat) (t : cptr G) : Prop :=
  (cp_sons c = 0 /\ n = 1 /\ t = c) \/ (0 < n /\ n = cp_sons c /\ cp_son c i = Ok t).
(** Clusters are always split the same way. *)
Definition hstd (h : hmatrix G) : Prop := forall s l, In s (hnodes h) -> hm_son s = Some l ->
  length l = hm_rsons s * hm_csons s /\
  forall i j t, i < hm_rsons s -> j < hm_csons s -> nth_error l (i + j * hm_rsons s) = Some t ->
  cl_part (hm_rc s) (hm_rsons s) i (hm_rc t) /\ cl_part (hm_cc s) (hm_csons s) j (hm_cc t).
End Spec.
Arguments hdata : clear implicits.
