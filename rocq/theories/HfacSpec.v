(** * Vocabulary for factorizations of H-matrices *)
From Coq Require Import Arith List Bool.
From Verif Require Import Ord Cluster Hmatrix HmSpec HlibSpec.

Section Spec.
Context {G : ofops}.

(** Every diagonal block is a dense matrix or subdivided into as many block rows as block columns. *)
Inductive hdiag : hmatrix G -> Prop :=
| hdiag_full rc f ds : hdiag (HM rc rc None (Some f) None 0 0 ds)
| hdiag_super rc l n ds : (forall j s, j < n -> nth_error l (j + j * n) = Some s -> hdiag s) -> hdiag (HM rc rc None None (Some l) n n ds).

(** Every subdivided block has as many block rows as block columns. *)
Definition hsqr (h : hmatrix G) : Prop := forall s l, In s (hnodes h) -> hm_son s = Some l -> hm_rsons s = hm_csons s.
End Spec.
