(** * Proofs about triangular H-matrices: the block algorithms *)
From Coq Require Import Arith Lia List Bool Ring.
From Verif Require Import Fld Ord Prog Arr View Spec Loop FactorSpec Cluster Block BlockP Avector AvectorP Amatrix AmatrixP AmatrixP2 Norm NormP
  Factor FactorP FactorP2 Rkmatrix RkSpec RkP Hmatrix HmSpec HmP HmP2 HmP3 Harith HaSpec.
Import ListNotations.

Section HaP.
Context {K : fops} {G : ofops} (L : ring_laws K).
Add Ring KringHa : (rl_ring K L).
Implicit Types (m : mem K) (R W : addr -> Prop) (h s : hmatrix G) (D U : nat -> nat -> K) (g b : nat -> K) (P B : nat -> bool).

(** ** Substitution and products by blocks *)
(** The rows in [P] are solved, the other ones hold the residual. *)
Definition sinv n U b P g : Prop := forall p, p < n ->
  if P p then msk n P (fun q => U p q * g q)%F = b p else g p = (b p - msk n P (fun q => U p q * g q))%F.

Lemma sinv_step n U b P B P' g g1 g2 :
  (forall q, q < n -> P' q = P q || B q) -> (forall q, q < n -> P q && B q = false) ->
  (forall p q, p < n -> q < n -> P p = true -> B q = true -> U p q = f0) ->
  sinv n U b P g ->
  (forall p, p < n -> B p = true -> msk n B (fun q => U p q * g1 q)%F = g p) ->
  (forall p, p < n -> B p = false -> g1 p = g p) ->
  (forall p, p < n -> P' p = true -> g2 p = g1 p) ->
  (forall p, p < n -> P' p = false -> g2 p = (g1 p - msk n B (fun q => U p q * g1 q))%F) ->
  sinv n U b P' g2.
Proof.
  intros E1 E2 HU Hi H1 H1' H2 H2' p Hp.
  assert (S1 : msk n P' (fun q => U p q * g2 q)%F = (msk n P (fun q => U p q * g q) + msk n B (fun q => U p q * g1 q))%F).
  { rewrite (msk_split L n P' P B _ E1 E2). f_equal.
    - apply msk_ext; [reflexivity|]. intros q Hq E. rewrite H2, H1'; [reflexivity|exact Hq| |exact Hq|rewrite E1, E by exact Hq; reflexivity].
      specialize (E2 q Hq). rewrite E in E2. exact E2.
    - apply msk_ext; [reflexivity|]. intros q Hq E. rewrite H2; [reflexivity|exact Hq|rewrite E1, E, orb_true_r by exact Hq; reflexivity]. }
  specialize (Hi p Hp). specialize (E1 p Hp). specialize (E2 p Hp). destruct (P p) eqn:EP.
  - rewrite E1. cbn [orb]. rewrite S1, Hi. rewrite (msk_ext n B B _ (fun _ => f0)); [| reflexivity |].
    + unfold msk. rewrite (sum_0 L); [ring|]. intros i _. destruct (B i); reflexivity.
    + intros q Hq E. rewrite (HU p q Hp Hq EP E). ring.
  - cbn [orb] in E1. rewrite E1. destruct (B p) eqn:EB.
    + rewrite S1, (H1 p Hp EB), Hi. ring.
    + rewrite (H2' p Hp E1), S1, (H1' p Hp EB), Hi. ring.
Qed.

(** The rows in [P] hold the product with the columns in [P], the other ones are unchanged. *)
Definition einv n U b P g : Prop := forall p, p < n -> g p = if P p then msk n P (fun q => U p q * b q)%F else b p.

Lemma einv_step n U b P B P' g g1 g2 :
  (forall q, q < n -> P' q = P q || B q) -> (forall q, q < n -> P q && B q = false) ->
  (forall p q, p < n -> q < n -> B p = true -> P q = true -> U p q = f0) ->
  einv n U b P g ->
  (forall p, p < n -> P p = true -> g1 p = (g p + msk n B (fun q => U p q * g q))%F) ->
  (forall p, p < n -> P p = false -> g1 p = g p) ->
  (forall p, p < n -> B p = true -> g2 p = msk n B (fun q => U p q * g1 q)%F) ->
  (forall p, p < n -> B p = false -> g2 p = g1 p) ->
  einv n U b P' g2.
Proof.
  intros E1 E2 HU Hi H1 H1' H2 H2' p Hp.
  assert (Hb : forall q, q < n -> B q = true -> g q = b q).
  { intros q Hq E. rewrite (Hi q Hq). specialize (E2 q Hq). rewrite E, andb_true_r in E2. rewrite E2. reflexivity. }
  assert (Hb1 : forall q, q < n -> B q = true -> g1 q = b q).
  { intros q Hq E. rewrite H1', Hb by (try assumption; specialize (E2 q Hq); rewrite E, andb_true_r in E2; exact E2). reflexivity. }
  assert (HP' : P' p = true -> msk n P' (fun q => U p q * b q)%F = (msk n P (fun q => U p q * b q) + msk n B (fun q => U p q * b q))%F).
  { intros _. apply (msk_split L n P' P B _ E1 E2). }
  pose proof (E1 p Hp) as Ep. pose proof (E2 p Hp) as Fp. destruct (P p) eqn:EP.
  - rewrite Ep. cbn [orb]. rewrite (HP' Ep). cbn [andb] in Fp. rewrite H2', H1 by assumption. rewrite (Hi p Hp), EP. f_equal.
    apply msk_ext; [reflexivity|]. intros q Hq E. rewrite Hb by assumption. reflexivity.
  - cbn [orb] in Ep. destruct (B p) eqn:EB; rewrite Ep.
    + rewrite (HP' Ep), (H2 p Hp EB). rewrite (msk_ext n P P _ (fun _ => f0)); [| reflexivity |].
      * unfold msk at 2. rewrite (sum_0 L); [|intros i _; destruct (P i); reflexivity].
        rewrite (msk_ext n B B (fun q => U p q * g1 q)%F (fun q => U p q * b q)%F); [ring|reflexivity|]. intros q Hq E. rewrite Hb1 by assumption. reflexivity.
      * intros q Hq E. rewrite (HU p q Hp Hq EB E). ring.
    + rewrite (H2' p Hp EB), (H1' p Hp EP), (Hi p Hp), EP. reflexivity.
Qed.

(** ** Right-hand sides *)
Record rlaws (X : @rhs K G) := RLaws {
  xcols : rhsT X -> nat;
  xwf : rhsT X -> Prop;
  xval : mem K -> rhsT X -> (nat -> nat -> K) -> Prop;
  xin : rhsT X -> addr -> Prop;
  xsub : rhsT X -> nat -> nat -> rhsT X;
  x_sub : forall R W x k off m (Q : rhsT X -> mem K -> Prop), off + k <= rsize X x -> Q (xsub x off k) m -> wp R W (rsub X x k off) m Q;
  x_done : forall R W x k off m (Q : unit -> mem K -> Prop), Q tt m -> wp R W (rdone X (xsub x off k)) m Q;
  x_size : forall x off k, rsize X (xsub x off k) = k;
  x_cols : forall x off k, xcols (xsub x off k) = xcols x;
  x_wf : forall x off k, xwf x -> off + k <= rsize X x -> xwf (xsub x off k);
  x_in : forall x off k a, off + k <= rsize X x -> xin (xsub x off k) a -> xin x a;
  x_disj : forall x off k off' k', xwf x -> off + k <= rsize X x -> off' + k' <= rsize X x -> off + k <= off' \/ off' + k' <= off ->
     disj (xin (xsub x off k)) (xin (xsub x off' k'));
  x_keeps : forall (W : addr -> Prop) m m' x F, xval m x F -> keeps W m m' -> disj (xin x) W -> xval m' x F;
  x_ext : forall m x F F', xval m x F -> (forall p k, p < rsize X x -> k < xcols x -> F' p k = F p k) -> xval m x F';
  x_valsub : forall m x off k F, xval m x F -> off + k <= rsize X x -> xval m (xsub x off k) (fun p c => F (off + p) c);
  x_back : forall m m' x off k F F', xwf x -> xval m x F -> off + k <= rsize X x -> xval m' (xsub x off k) F' ->
     keeps (xin (xsub x off k)) m m' -> xval m' x (fun p c => if inb off k p then F' (p - off) c else F p c);
  x_solve : forall R W lower aunit t A x n D F m (Q : unit -> mem K -> Prop),
     pval m A (intri lower aunit) D -> mrows A = n -> mcols A = n -> rsize X x = n -> xwf x -> xval m x F ->
     disj (inm A) (xin x) -> rdok R W (inm A) -> wrok W (xin x) -> aunit = true \/ (forall i, i < n -> D i i <> f0) ->
     (forall F' m', (forall p c, p < n -> c < xcols x -> sum n (fun q => tr t (tripart lower aunit D) p q * F' q c)%F = F p c) ->
        xval m' x F' -> keeps (xin x) m m' -> Q tt m') ->
     wp R W (rsolve X lower aunit t A x) m Q;
  x_eval : forall R W lower aunit t A x n D F m (Q : unit -> mem K -> Prop),
     pval m A (intri lower aunit) D -> mrows A = n -> mcols A = n -> rsize X x = n -> xwf x -> xval m x F ->
     disj (inm A) (xin x) -> rdok R W (inm A) -> wrok W (xin x) ->
     (forall m', xval m' x (fun p c => sum n (fun q => tr t (tripart lower aunit D) p q * F q c)%F) -> keeps (xin x) m m' -> Q tt m') ->
     wp R W (reval X lower aunit t A x) m Q;
  x_add : forall R W alpha (t : bool) s x y D F H m (Q : unit -> mem K -> Prop),
     hrep m s D -> rsize X x = (if t then hrows s else hcols s) -> rsize X y = (if t then hcols s else hrows s) -> xcols x = xcols y ->
     xwf x -> xwf y -> xval m x F -> xval m y H ->
     disj (xin x) (xin y) -> disj (inh s) (xin y) -> rdok R W (inh s) -> rdok R W (xin x) -> wrok W (xin y) ->
     (forall m', xval m' y (fun p c => H p c + alpha * sum (rsize X x) (fun q => tr t D p q * F q c))%F -> keeps (xin y) m m' -> Q tt m') ->
     wp R W (radd X alpha t s x y) m Q
}.
End HaP.
