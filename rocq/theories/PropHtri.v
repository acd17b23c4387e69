(** * Property C57: triangular parts of H-matrices *)
From Coq Require Import Arith Lia List Bool NArith.
From Coq Require Import Reals Lra.
From Verif Require Import Fld Inst Ord OrdInst Prog Arr View Loop Line Spec ParP FactorSpec Cluster Block BlockP Amatrix Rkmatrix RkSpec RkP Hmatrix HmSpec HmP HmP3 HmP4 HmP5 HlibSpec Harith HaSpec HaP HaddSpec HmvP Hadd HaddP HaddP5
  Hinv HinvSpec HinvP6 PropHadd PropHfac PropHinv.
Import ListNotations.
Local Open Scope nat_scope.

Section Tri.
Context {K : fops} {G : ofops}.
Local Notation hmx := (hmatrix G).
Implicit Types (m : mem K) (a : hmx) (A : nat -> nat -> K).

(** The result is a new matrix with its own storage: it represents the lower triangular part of the
    source, with ones on the diagonal if [aunit] is set, and the source is not changed. *)
Definition tri_copy (lower aunit : bool) a A m (b : hmx) m' : Prop :=
  hrep m' b (tripart lower aunit A) /\ htriof lower a b /\ hm_rc b = hm_rc a /\ hm_cc b = hm_cc a /\ hdesc_ok b /\
  hown m' b /\ (forall k, In k (hblocks b) -> next m <= k) /\
  hrep m' a A /\ (forall c, fst c < next m -> get m' c = get m c).

Lemma tri_clone lower aunit a A m : hstr m a -> hrep m a A -> hsquare a -> hstd a ->
  ends (clone_tri_hmatrix lower aunit a) m (tri_copy lower aunit a A m).
Proof.
  intros H1 H2 H3 H4. apply wp_ends. eapply wp_clone_tri; try eassumption. intros b m' T1 T2 T3 T4 T5 T6 T7 T8.
  split; [exact T6|]. split; [exact T1|]. split; [exact T2|]. split; [exact T3|]. split; [exact T5|]. split; [exact T4|]. split; [exact T7|]. split.
  - eapply hrep_blk; [exact H2|exact T8|]. intros c Hc. apply (hstr_bound m) in Hc; [cbv beta; lia|exact H1].
  - intros c Hc. apply T8. cbv beta. lia.
Qed.
Theorem C57_clone_lower_hmatrix : forall aunit a A m, hstr m a -> hrep m a A -> hsquare a -> hstd a ->
  ends (clone_lower_hmatrix aunit a) m (tri_copy true aunit a A m).
Proof. intros. apply tri_clone; assumption. Qed.
Theorem C57_clone_upper_hmatrix : forall aunit a A m, hstr m a -> hrep m a A -> hsquare a -> hstd a ->
  ends (clone_upper_hmatrix aunit a) m (tri_copy false aunit a A m).
Proof. intros. apply tri_clone; assumption. Qed.

(** Both parts of a matrix that contains the factors of an LR factorization: the factors are now matrices
    of their own, and they do not share storage. *)
Theorem C57_lr_parts : forall a A F m, hstr m a -> hrep m a F -> hsquare a -> hstd a ->
  (forall i j, i < hrows a -> j < hrows a -> mmul (hrows a) (tripart true true F) (tripart false false F) i j = A i j) ->
  ends (b <- clone_lower_hmatrix true a ;; c <- clone_upper_hmatrix false a ;; Ret (b, c)) m (fun r m' => exists X Y,
    hrep m' (fst r) X /\ hrep m' (snd r) Y /\ hown m' (fst r) /\ hown m' (snd r) /\ (forall k, In k (hblocks (fst r)) -> ~ In k (hblocks (snd r))) /\
    (forall i j, i < hrows a -> j < hrows a -> mmul (hrows a) X Y i j = A i j) /\
    (forall i j, i < j -> X i j = f0) /\ (forall i, X i i = f1) /\ (forall i j, j < i -> Y i j = f0) /\
    hrep m' a F).
Proof.
  intros a A F m H1 H2 H3 H4 H5. destruct (C57_clone_lower_hmatrix true a F m H1 H2 H3 H4) as (b & m1 & Hrun & (R1 & R2 & _ & _ & _ & R3 & R4 & R5 & R6)).
  assert (Hn : next m <= next m1).
  { assert (HS : wp TT TT (clone_lower_hmatrix true a) m (fun _ m' => next m <= next m')) by (eapply wp_clone_tri; try eassumption; intros; match goal with K : keeps _ _ _ |- _ => apply K end).
    apply wp_ends in HS. destruct HS as (b' & m1' & Hr & Hle). rewrite Hrun in Hr. injection Hr as _ <-. exact Hle. }
  assert (H1' : hstr m1 a).
  { eapply hstr_blk with (W := fun c => next m <= fst c); [exact H1| |]; [split; [exact Hn|intros c Hc; apply R6; lia]|]. intros c Hc. apply (hstr_bound m) in Hc; [cbv beta; lia|exact H1]. }
  assert (HW : wp TT TT (clone_upper_hmatrix false a) m1 (fun c m2 => tri_copy false false a F m1 c m2 /\ next m1 <= next m2)).
  { eapply wp_clone_tri; try eassumption. intros c m' T1 T2 T3 T4 T5 T6 T7 T8. split; [|apply T8].
    split; [exact T6|]. split; [exact T1|]. split; [exact T2|]. split; [exact T3|]. split; [exact T5|]. split; [exact T4|]. split; [exact T7|]. split.
    - eapply hrep_blk; [exact R5|exact T8|]. intros x Hx. apply (hstr_bound m1) in Hx; [cbv beta; lia|exact H1'].
    - intros x Hx. apply T8. cbv beta. lia. }
  apply wp_ends in HW. destruct HW as (c & m2 & Hrun2 & (S1 & S2 & _ & _ & _ & S3 & S4 & S5 & S6) & Hn2).
  assert (Kp : keeps (fun x => next m1 <= fst x) m1 m2) by (split; [exact Hn2|intros x Hx; apply S6; lia]).
  assert (Hb : forall x, In x (hblocks b) -> x < next m1) by (intros x; apply hstr_bound, R3).
  exists (b, c), m2. split; [rewrite run_bind, Hrun; rewrite run_bind, Hrun2; reflexivity|]. exists (tripart true true F), (tripart false false F). cbn [fst snd].
  split; [eapply hrep_blk; [exact R1|exact Kp|intros x Hx; apply Hb in Hx; cbv beta; lia]|]. split; [exact S1|].
  split; [split; [eapply hstr_blk; [apply R3|exact Kp|intros x Hx; apply Hb in Hx; cbv beta; lia]|apply R3]|]. split; [exact S3|].
  split; [intros k X1 X2; apply Hb in X1; apply S4 in X2; lia|]. split; [exact H5|].
  split; [intros i j Hij; unfold tripart; destruct (Nat.eqb_spec i j); [lia|]; destruct (Nat.ltb_spec j i); [lia|reflexivity]|].
  split; [intros i; unfold tripart; rewrite Nat.eqb_refl; reflexivity|].
  split; [intros i j Hij; unfold tripart; destruct (Nat.eqb_spec i j); [lia|]; destruct (Nat.ltb_spec i j); [lia|reflexivity]|exact S5].
Qed.
End Tri.

(** The hypotheses hold for the matrix [yh 5] of PropHadd.v, which has a low-rank leaf below the
    diagonal. *)
Example C57_hyps : let m := mem_of ym in hstr m (yh 5) /\ hrep m (yh 5) (yD 5) /\ hsquare (yh 5) /\ hstd (yh 5).
Proof.
  cbv zeta. split; [apply yh_own; auto|]. split; [apply yh_rep; auto|]. split; [|apply yh_std].
  apply (hsquare_super _ _ _ _ (fun i => 1 + i)).
  - intros [|[|i]] [|[|j]] s Hi Hj Hs; try lia; cbn in Hs; injection Hs as <-; split; reflexivity.
  - intros [|[|j]] s Hj Hs; try lia; cbn in Hs; injection Hs as <-; constructor.
Qed.

Print Assumptions C57_clone_lower_hmatrix.
Print Assumptions C57_clone_upper_hmatrix.
Print Assumptions C57_lr_parts.
