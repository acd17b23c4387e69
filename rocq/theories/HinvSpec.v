(** * Vocabulary for the inversion of H-matrices *)
From Coq Require Import Arith Lia List Bool.
From Verif Require Import Fld Ord Prog Arr View Spec Cluster Block Rkmatrix RkSpec Hmatrix HmSpec.
Import ListNotations.

Section Spec.
Context {K : fops} {G : ofops}.
Local Notation hmx := (hmatrix G).

(** The dense leaves of [h] are allocated, and all matrices have the right sizes.  Nothing is assumed
    about their contents. *)
Inductive hroom (m : mem K) : hmx -> Prop :=
| hroom_rk rc cc r ds : mrows (rk_A r) = csz rc -> mrows (rk_B r) = csz cc -> hroom m (HM rc cc (Some r) None None 0 0 ds)
| hroom_full rc cc f ds : mrows f = csz rc -> mcols f = csz cc -> malloc m f -> hroom m (HM rc cc None (Some f) None 0 0 ds)
| hroom_super rc cc l rsons csons ds hs ws :
    0 < rsons -> 0 < csons -> length l = rsons * csons ->
    nsum rsons hs = csz rc -> nsum csons ws = csz cc ->
    (forall i j s, i < rsons -> j < csons -> nth_error l (i + j * rsons) = Some s -> hrows s = hs i /\ hcols s = ws j) ->
    (forall s, In s l -> hroom m s) ->
    hroom m (HM rc cc None None (Some l) rsons csons ds).
End Spec.

(** [w] can be used as working storage for [a]: the same clusters and the same splitting, in [a] and
    in all diagonal blocks that have to be inverted. *)
Inductive hfits {G : ofops} : hmatrix G -> hmatrix G -> Prop :=
| hfits_full rc f ds w : hm_rc w = rc -> hm_cc w = rc -> hm_rsons w = 0 -> hm_csons w = 0 -> hfits (HM rc rc None (Some f) None 0 0 ds) w
| hfits_super rc l n ds lw ds' :
    (forall j s t, j < n -> nth_error l (j + j * n) = Some s -> nth_error lw (j + j * n) = Some t -> hfits s t) ->
    hfits (HM rc rc None None (Some l) n n ds) (HM rc rc None None (Some lw) n n ds').

(** [h'] has the structure of the lower or upper triangular part of [h]: diagonal leaves are dense, the
    blocks on the other side of the diagonal are low-rank leaves of rank zero. *)
Inductive htriof {G : ofops} (lower : bool) : hmatrix G -> hmatrix G -> Prop :=
| htriof_full rc f f' ds ds' : htriof lower (HM rc rc None (Some f) None 0 0 ds) (HM rc rc None (Some f') None 0 0 ds')
| htriof_super rc l l' n ds ds' : length l = n * n -> length l' = n * n ->
    (forall j s s', j < n -> nth_error l (j + j * n) = Some s -> nth_error l' (j + j * n) = Some s' -> htriof lower s s') ->
    (forall i j s s', i < n -> j < n -> (if lower then j < i else i < j) -> nth_error l (i + j * n) = Some s -> nth_error l' (i + j * n) = Some s' -> hsim s s') ->
    (forall i j s s', i < n -> j < n -> (if lower then i < j else j < i) -> nth_error l (i + j * n) = Some s -> nth_error l' (i + j * n) = Some s' ->
       exists r ds, s' = HM (hm_rc s) (hm_cc s) (Some r) None None 0 0 ds /\ rk_k r = 0) ->
    htriof lower (HM rc rc None None (Some l) n n ds) (HM rc rc None None (Some l') n n ds').
