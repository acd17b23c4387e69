(** * Rank detection *)
From Coq Require Import Arith NArith Lia List Bool Ring Permutation.
From Verif Require Import Fld Prog View Spec Loop Line Avector Amatrix AvectorP AmatrixP Factor FactorSpec FactorP FactorP2 Chol CholSpec Qr QrSpec QrP QrP2 QrP3 QrP4 QrP5.

Section QRP6.
Context {K : fops} (L : field_laws K) (O : qops K) (H : qlaws O).
Notation RL := (fl_ring K L).
Add Ring KringQ6 : (rl_ring K (fl_ring K L)).
Implicit Types (m : mem K) (R W : addr -> Prop) (A X : mat) (F G f E M : nat -> nat -> K) (t y w : nat -> K).

Lemma sum_pick n p (g : nat -> K) : p < n -> sum n (fun j => if j =? p then g j else f0) = g p.
Proof.
  intros Hp. rewrite (sum_single RL n p _ Hp); [rewrite Nat.eqb_refl; reflexivity|].
  intros j _ Hj. destruct (Nat.eqb_spec j p); [contradiction|reflexivity].
Qed.
Lemma sum_swapc n k q (g : nat -> K) : k <= q -> q < n -> sum (n - k) (fun j => g (swapc k q (k + j))) = sum (n - k) (fun j => g (k + j)%nat).
Proof.
  intros Hk Hq.
  transitivity (sum (n - k) (fun j => g (k + j)%nat) + sum (n - k) (fun j => if j =? 0 then g q - g k else f0)%F
     + sum (n - k) (fun j => if j =? q - k then g k - g q else f0)%F)%F.
  - rewrite <- !(sum_add RL). apply sum_ext. intros j Hj. unfold swapc.
    destruct (Nat.eqb_spec (k + j) k), (Nat.eqb_spec (k + j) q), (Nat.eqb_spec j 0), (Nat.eqb_spec j (q - k)); try lia;
      repeat match goal with E : (k + j)%nat = _ |- _ => rewrite E in *; clear E end; try ring.
  - rewrite (sum_pick (n - k) 0 (fun _ => (g q - g k)%F)) by lia.
    rewrite (sum_pick (n - k) (q - k) (fun _ => (g k - g q)%F)) by lia. ring.
Qed.

Definition zerob (x : K) : bool := feqb x f0.
Lemma zerob_0 : zerob f0 = true.
Proof. apply (fl_eqb K L). reflexivity. Qed.

Lemma qrinv_zero n c k f F t E : qrinv zerob n c k f F t E -> forall i j, i < n -> E i j = f0.
Proof.
  intros (_ & _ & H3 & H4) i j Hi. destruct (Nat.lt_ge_cases j k) as [Hj|Hj]; [|apply H3; assumption].
  destruct (H4 j Hj) as [E0|E0]; [apply E0, Hi|]. apply (fl_eqb K L) in E0.
  assert (E1 : sum n (fun i => abssqr (E i j)) = f0).
  { eapply (ssq_0l L O H) with (b := abssqr (F j j)).
    - exists n, (fun i => E i j). reflexivity.
    - apply (ssq_abssqr L).
    - rewrite <- E0. ring. }
  apply (rw_sumsq O (ql_r O H) n (fun i => E i j)); [|exact Hi].
  change (nonpos O (sum n (fun i => abssqr (E i j))) = true). rewrite E1. apply (rw_0 O (ql_r O H)).
Qed.

(** What remains after [k] steps. *)
Definition rest (n c k : nat) F : K := sum (c - k) (fun j => csum n k F (k + j)%nat).

Lemma qrinv_approx n c k f F t E : qrinv zerob n c k f F t E -> k <= n -> k <= c ->
  exists Err,
    (forall i j, i < n -> j < c ->
       f i j = (sum k (fun l => qmat n F t k i l * (if l <=? j then F l j else f0)) + Err i j)%F) /\
    fro2 n c Err = rest n c k F.
Proof.
  intros HI Hkn Hkc. pose proof (qrinv_zero n c k f F t E HI) as HE0. destruct HI as (H1 & H2 & _ & _).
  set (T := fun l j => if (k <=? l) && (k <=? j) then F l j else f0).
  exists (mmul n (qmat n F t k) T). split.
  - intros i j Hi Hj. rewrite H1 by assumption. rewrite HE0 by assumption.
    transitivity (mmul n (qmat n F t k) (Rk F k) i j); [ring|].
    transitivity (mmul n (qmat n F t k) (fun l j => if (l <? k) then (if l <=? j then F l j else f0) else f0) i j + mmul n (qmat n F t k) T i j)%F.
    + unfold mmul. rewrite <- (sum_add RL). apply sum_ext. intros l Hl. unfold Rk, T. bsplit; try lia; ring.
    + f_equal. unfold mmul. replace n with (k + (n - k)) at 1 by lia. rewrite (sum_app RL), (sum_0 RL (n - k)).
      * transitivity (sum k (fun l => qmat n F t k i l * (if l <? k then if l <=? j then F l j else f0 else f0))%F); [ring|].
        apply sum_ext. intros l Hl. bsplit; try lia; reflexivity.
      * intros l Hl. bsplit; try lia; ring.
  - unfold fro2, rest. replace c with (k + (c - k)) at 1 by lia. rewrite (sum_app RL), (sum_0 RL k).
    + transitivity (sum (c - k) (fun i => dot n (fun i0 => mmul n (qmat n F t k) T i0 (k + i)) (fun i0 => mmul n (qmat n F t k) T i0 (k + i)))); [ring|].
      apply sum_ext. intros j Hj.
      etransitivity; [apply (unitary_dot L n (qmat n F t k) (fun i => T i (k + j)) (fun i => T i (k + j))); apply (qmat_unitary L); exact H2|].
      rewrite (csum_split L n k T) by lia. rewrite (sum_0 RL k).
      * transitivity (csum n k T (k + j)); [ring|]. apply csum_ext. intros i Hi. unfold T. bsplit; try lia. reflexivity.
      * intros i Hi. unfold T, abssqr. bsplit; try lia; rewrite ?(fconj_0 RL); ring.
    + intros j Hj.
      etransitivity; [apply (unitary_dot L n (qmat n F t k) (fun i => T i j) (fun i => T i j)); apply (qmat_unitary L); exact H2|].
      unfold dot. apply (sum_0 RL). intros i Hi. unfold T. bsplit; try lia; rewrite ?(fconj_0 RL); ring.
Qed.

Lemma rest_full n c F : rest n c (Nat.min n c) F = f0.
Proof.
  unfold rest. destruct (Nat.le_ge_cases n c) as [Hc|Hc].
  - rewrite Nat.min_l by exact Hc. apply (sum_0 RL). intros j Hj. unfold csum. rewrite Nat.sub_diag. reflexivity.
  - rewrite Nat.min_r by exact Hc. rewrite Nat.sub_diag. reflexivity.
Qed.

Definition stopped (n c k : nat) (tm : option trunc) (eps : K) f F : Prop :=
  if absmode tm then gtb O (rest n c k F) (eps * eps)%F = false
  else 0 < k /\ exists x, firstnorm O n c tm f x /\ gtb O (rest n c k F) (eps * eps * x)%F = false.

Lemma csum_0 n M j : csum n 0 M j = dot n (fun i => M i j) (fun i => M i j).
Proof. unfold csum, dot. rewrite Nat.sub_0_r. reflexivity. Qed.

Lemma wp_qr_rank_loop R W A tau f tm (eps : K) m0 (Q : nat * list nat -> mem K -> Prop) :
  let n := mrows A in let c := mcols A in
  let r := Nat.min n c in
  mwf A -> r <= vdim tau ->
  disj (inm A) (inv tau) -> wrok W (inm A) -> wrok W (inv tau) ->
  (forall k p F t m', k <= r -> qpst O zerob A tau f k p m0 F t (fun _ _ => f0) m' ->
     (k = r \/ stopped n c k tm eps f F) -> Q (k, p) m') ->
  forall cnt k first p F t E m, k + cnt = r ->
  qpst O zerob A tau f k p m0 F t E m ->
  (k = 0 -> F = f) ->
  (k <> 0 -> absmode tm = false -> firstnorm O n c tm f first) ->
  wp R W (qr_rank_loop O A tau n c tm eps cnt k first p) m Q.
Proof.
  intros n c r Hwf Hrt Hd Hw Hwt HQ0.
  assert (HQ : forall k p F t E m', k <= r -> qpst O zerob A tau f k p m0 F t E m' ->
     (k = r \/ stopped n c k tm eps f F) -> Q (k, p) m').
  { intros k p F t E m' Hk HS Hst. apply (HQ0 k p F t m' Hk); [|exact Hst].
    destruct HS as (HI & HS). split; [|exact HS]. pose proof (qrinv_zero _ _ _ _ _ _ _ HI) as HE0.
    destruct HI as (H1 & H2 & _ & _). split; [|split; [exact H2|split; [reflexivity|left; reflexivity]]].
    intros i j Hi Hj. rewrite H1 by assumption. rewrite HE0 by assumption. reflexivity. }
  clear HQ0. induction cnt as [|cnt IH]; intros k first p F t E m Hkr HS H0 Hf; cbn [qr_rank_loop].
  - cbn [wp]. eapply HQ; [|exact HS|]; [lia|left; lia].
  - assert (Hkn : k < n) by lia. assert (Hkc : k < c) by lia. apply wp_bind.
    eapply wp_qr_search; [exact L|exact H|apply HS|exact Hkn|exact Hkc|apply rdok_w, Hw|]. intros q Hq Hmax. cbv beta iota zeta.
    fold n c. change (sum (c - k) (fun j => csum n k F (k + j)%nat)) with (rest n c k F).
    apply wp_bind. eapply wp_qp_swap; [exact Hwf|exact HS|exact Hq|exact Hw|exact Hd|lia|].
    intros F' m2 EC HS'. fold n c in EC.
    assert (ER : rest n c k F' = rest n c k F).
    { unfold rest. rewrite <- (sum_swapc c k q (csum n k F)) by (fold c in Hq; lia). apply sum_ext. intros j Hj. apply EC. }
    assert (EK : csum n k F' k = csum n k F q).
    { rewrite EC. f_equal. unfold swapc. rewrite Nat.eqb_refl. reflexivity. }
    fold (absmode tm) (fromode tm).
    set (first' := if negb (absmode tm) && (k =? 0) then (if fromode tm then rest n c k F else csum n k F q) else first).
    assert (Hf' : absmode tm = false -> firstnorm O n c tm f first').
    { intros Ha. unfold first'. rewrite Ha. cbn [negb andb]. destruct (Nat.eqb_spec k 0) as [E0|E0].
      - unfold firstnorm. rewrite (H0 E0) in *. subst k. destruct (fromode tm).
        + unfold rest, fro2. rewrite Nat.sub_0_r. apply sum_ext. intros j Hj. apply csum_0.
        + exists q. split; [apply Hq|]. split; [apply csum_0|]. intros j Hj. rewrite <- csum_0. apply Hmax. fold c. lia.
      - apply Hf; assumption. }
    match goal with |- wp _ _ (if ?b then _ else _) _ _ => destruct b eqn:Est end.
    + cbn [wp]. eapply HQ; [|exact HS'|]; [lia|right]. unfold stopped. rewrite ER.
      destruct (absmode tm) eqn:Ea; [apply negb_true_iff; exact Est|].
      destruct (Nat.eqb_spec k 0) as [E0|E0]; [discriminate|]. split; [lia|].
      exists first'. split; [apply Hf'; reflexivity|]. apply negb_true_iff. exact Est.
    + apply wp_bind. rewrite <- EK.
      change (feqb (csum n k F' k) f0) with (zerob (csum n k F' k)).
      eapply (wp_qp_col L O H R W zerob A tau f k _ m0 F' t E m2); [exact Hwf|exact HS'|exact Hkn|exact Hkc|lia|exact Hw|exact Hwt|exact Hd|apply zerob_0| |].
      * fold n c. intros j Hj. rewrite EK, EC. apply Hmax. fold c. unfold swapc. bsplit; lia.
      * intros F2 t2 E2 m3 HS2. replace (k + 1) with (S k) by lia.
        eapply IH; [|exact HS2| |]; [lia|discriminate|]. intros _ Ha. apply Hf', Ha.
Qed.
End QRP6.
