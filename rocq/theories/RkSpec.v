(** * Vocabulary for low-rank matrices *)
From Coq Require Import Arith List Bool.
From Verif Require Import Fld Prog View Spec Rkmatrix.

Section Spec.
Context {K : fops}.

(** The matrix [A B^*] for factors with [k] columns. *)
Definition lowrank (k : nat) (A B : nat -> nat -> K) (i j : nat) : K := sum k (fun nu => A i nu * fconj (B j nu))%F.

(** The matrix represented by [r] is [D]. *)
Definition rkrep (m : mem K) (r : rkm) (D : nat -> nat -> K) : Prop :=
  exists A B, mval m (rk_A r) A /\ mval m (rk_B r) B /\ mcols (rk_A r) = rk_k r /\ mcols (rk_B r) = rk_k r /\
    forall i j, i < mrows (rk_A r) -> j < mrows (rk_B r) -> D i j = lowrank (rk_k r) A B i j.

(** The cells of the two factors. *)
Definition inrk (r : rkm) (a : addr) : Prop := inm (rk_A r) a \/ inm (rk_B r) a.

(** [r] owns the storage of its factors, as after [init_rkmatrix]. *)
Definition rkown (m : mem K) (r : rkm) : Prop :=
  mown (rk_A r) = true /\ mown (rk_B r) = true /\ mblk (rk_A r) <> mblk (rk_B r) /\
  mblk (rk_A r) < next m /\ mblk (rk_B r) < next m /\ mwf (rk_A r) /\ mwf (rk_B r) /\
  mcols (rk_A r) = rk_k r /\ mcols (rk_B r) = rk_k r /\ malloc m (rk_A r) /\ malloc m (rk_B r).
(** The blocks of the factors. *)
Definition rkblk (r : rkm) (a : addr) : Prop := fst a = mblk (rk_A r) \/ fst a = mblk (rk_B r).
End Spec.
