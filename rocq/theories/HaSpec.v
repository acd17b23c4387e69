(** * Vocabulary for triangular H-matrices *)
From Coq Require Import Arith Lia List Bool.
From Verif Require Import Fld Ord Prog Arr View Spec FactorSpec Cluster Block Rkmatrix RkSpec Hmatrix HmSpec.
Import ListNotations.

Section Spec.
Context {K : fops} {G : ofops}.

(** The lower ([lower = true]) or upper triangle of the H-matrix [h] stores the triangle of [D],
    with an implicit unit diagonal if [unit] is set: diagonal blocks belong to one cluster, leaves on
    the diagonal are dense, the other blocks of the triangle represent blocks of [D].  Nothing is
    assumed about the blocks of the other triangle except for their sizes. *)
Inductive htri (lower unit : bool) (m : mem K) : hmatrix G -> (nat -> nat -> K) -> Prop :=
| htri_full rc f ds D :
    mrows f = csz rc -> mcols f = csz rc -> pval m f (intri lower unit) D ->
    htri lower unit m (HM rc rc None (Some f) None 0 0 ds) D
| htri_super rc l n ds hs D :
    length l = n * n -> nsum n hs = csz rc ->
    (forall i j s, i < n -> j < n -> nth_error l (i + j * n) = Some s -> hrows s = hs i /\ hcols s = hs j) ->
    (forall j s, j < n -> nth_error l (j + j * n) = Some s ->
       htri lower unit m s (fun p q => D (nsum j hs + p) (nsum j hs + q))) ->
    (forall i j s, i < n -> j < n -> (if lower then j < i else i < j) -> nth_error l (i + j * n) = Some s ->
       hrep m s (fun p q => D (nsum i hs + p) (nsum j hs + q))) ->
    htri lower unit m (HM rc rc None None (Some l) n n ds) D.
End Spec.
