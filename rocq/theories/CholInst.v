(** * Real and complex numbers with square roots

    The two structures satisfy the laws the theorems on Cholesky decompositions
    assume. *)
From Coq Require Import Arith Lia List Bool.
From Coq Require Import Reals Lra.
From Verif Require Import Fld Spec OrdInst Chol CholSpec.
Local Open Scope nat_scope.

Lemma sum_nonneg n (f : nat -> R) : (forall i, i < n -> (0 <= f i)%R) -> (0 <= @sum Rf n f)%R.
Proof.
  induction n as [|n IH]; intros H; cbn [sum]; [cbn; lra|].
  specialize (IH (fun i Hi => H i (Nat.lt_lt_succ_r _ _ Hi))). specialize (H n (Nat.lt_succ_diag_r n)).
  change (@fadd Rf) with Rplus. lra.
Qed.
Lemma sum_nonneg_0 n (f : nat -> R) : (forall i, i < n -> (0 <= f i)%R) -> (@sum Rf n f <= 0)%R ->
  forall i, i < n -> f i = 0%R.
Proof.
  induction n as [|n IH]; intros H E i Hi; [lia|]. cbn [sum] in E. change (@fadd Rf) with Rplus in E.
  assert (H' : forall i, i < n -> (0 <= f i)%R) by (intros; apply H; lia).
  pose proof (sum_nonneg n f H'). pose proof (H n (Nat.lt_succ_diag_r n)).
  destruct (Nat.eq_dec i n) as [->|N]; [lra|]. apply IH; [exact H'|lra|lia].
Qed.

(** ** Real numbers *)
Definition Rr : rops Rf :=
  Rops Rf (fun x => x) (fun x => R_ltb (/ 1000000000000) (Rabs (x - x))) (fun x => negb (R_ltb 0 x)) sqrt.

Lemma Rr_laws : rlaws Rr.
Proof.
  constructor.
  - reflexivity.
  - cbn. intros x _. apply R_ltb_false. replace (x - x)%R with 0%R by ring. rewrite Rabs_R0. lra.
  - cbn. intros x _ H. apply negb_false_iff, R_ltb_iff in H. split; [|split].
    + apply sqrt_sqrt. lra.
    + reflexivity.
    + apply negb_false_iff, R_ltb_iff, sqrt_lt_R0, H.
  - cbn. apply negb_true_iff, R_ltb_false. lra.
  - cbn. intros n x H i Hi. apply negb_true_iff, R_ltb_false in H. unfold dot in H. cbn in H.
    assert (E : (x i * x i = 0)%R); [|nra].
    apply (sum_nonneg_0 n (fun i => x i * x i)%R); [intros; nra|exact H|exact Hi].
Qed.

(** ** Complex numbers *)
Definition Cx : Type := (R * R)%type.
Definition cx_add (x y : Cx) : Cx := (fst x + fst y, snd x + snd y)%R.
Definition cx_mul (x y : Cx) : Cx := (fst x * fst y - snd x * snd y, fst x * snd y + snd x * fst y)%R.
Definition cx_sub (x y : Cx) : Cx := (fst x - fst y, snd x - snd y)%R.
Definition cx_opp (x : Cx) : Cx := (- fst x, - snd x)%R.
Definition cx_inv (x : Cx) : Cx :=
  (fst x / (fst x * fst x + snd x * snd x), - snd x / (fst x * fst x + snd x * snd x))%R.
Definition cx_conj (x : Cx) : Cx := (fst x, - snd x)%R.
Definition cx_eqb (x y : Cx) : bool := R_eqb (fst x) (fst y) && R_eqb (snd x) (snd y).
Definition Cf : fops := FOps Cx (0, 0)%R (1, 0)%R cx_add cx_mul cx_sub cx_opp cx_inv cx_conj cx_eqb.

Lemma R_eqb_iff x y : R_eqb x y = true <-> x = y.
Proof. unfold R_eqb. destruct (Req_EM_T x y); split; auto; discriminate || contradiction. Qed.

Lemma Cf_field : field_laws Cf.
Proof.
  constructor.
  - constructor.
    + constructor; cbn; intros; unfold cx_add, cx_mul, cx_sub, cx_opp;
        repeat match goal with x : Cx |- _ => destruct x end; cbn; f_equal; ring.
    + intros [a b] [c d]; cbn; unfold cx_conj, cx_add; cbn; f_equal; ring.
    + intros [a b] [c d]; cbn; unfold cx_conj, cx_mul; cbn; f_equal; ring.
    + intros [a b]; cbn; unfold cx_conj; cbn; f_equal; ring.
  - cbn. intros [= E]. lra.
  - intros [a b] H. cbn. unfold cx_mul, cx_inv; cbn.
    assert (Hd : (a * a + b * b <> 0)%R).
    { intros E. apply H. cbn. assert (a = 0)%R by nra. assert (b = 0)%R by nra. subst. reflexivity. }
    f_equal; field; exact Hd.
  - intros [a b] [c d]; cbn. unfold cx_eqb; cbn. rewrite andb_true_iff, !R_eqb_iff.
    split; [intros [-> ->]; reflexivity|]. intros [= -> ->]; split; reflexivity.
Qed.

Definition Cr : rops Cf :=
  Rops Cf (fun x => (fst x, 0)%R) (fun x => R_ltb (/ 1000000000000) (Rabs (snd x)))
    (fun x => negb (R_ltb 0 (fst x))) (fun x => (sqrt (fst x), 0)%R).

Lemma cx_real (x : Cx) : cx_conj x = x -> snd x = 0%R.
Proof. destruct x as [a b]. unfold cx_conj. cbn. intros [= E]. lra. Qed.

Lemma fst_sum n (f : nat -> Cf) : fst (sum n f) = @sum Rf n (fun i => fst (f i)).
Proof. induction n as [|n IH]; cbn [sum]; [reflexivity|]. cbn in *. rewrite IH. reflexivity. Qed.

Lemma Cr_laws : rlaws Cr.
Proof.
  constructor.
  - cbn. intros x E. apply cx_real in E. destruct x as [a b]. cbn in *. subst. reflexivity.
  - cbn. intros x E. apply cx_real in E. rewrite E, Rabs_R0. apply R_ltb_false. lra.
  - cbn. intros x E H. apply cx_real in E. apply negb_false_iff, R_ltb_iff in H. split; [|split].
    + destruct x as [a b]. unfold cx_mul. cbn in *. rewrite sqrt_sqrt by lra. subst. f_equal; ring.
    + unfold cx_conj. cbn. f_equal. ring.
    + apply negb_false_iff, R_ltb_iff, sqrt_lt_R0, H.
  - cbn. apply negb_true_iff, R_ltb_false. lra.
  - cbn. intros n x H i Hi. apply negb_true_iff, R_ltb_false in H. unfold dot in H. rewrite fst_sum in H. cbn in H.
    assert (E : (fst (x i) * fst (x i) - - snd (x i) * snd (x i) = 0)%R).
    { apply (sum_nonneg_0 n (fun i => fst (x i) * fst (x i) - - snd (x i) * snd (x i))%R); [intros; nra|exact H|exact Hi]. }
    destruct (x i) as [a b]. cbn in E. assert (a = 0)%R by nra. assert (b = 0)%R by nra. subst. reflexivity.
Qed.

Lemma quad_4225 (a b : R) : (a <> 0 \/ b <> 0 -> 0 < 4 * (a * a) + 4 * (a * b) + 5 * (b * b))%R.
Proof.
  intros N. replace (4 * (a * a) + 4 * (a * b) + 5 * (b * b))%R with (Rsqr (2 * a + b) + 4 * Rsqr b)%R by (unfold Rsqr; ring).
  destruct (Req_dec b 0) as [->|Hb].
  - assert (Ha : (2 * a + 0 <> 0)%R) by (destruct N; lra). pose proof (Rsqr_pos_lt _ Ha). unfold Rsqr in *. lra.
  - pose proof (Rsqr_pos_lt _ Hb). pose proof (Rle_0_sqr (2 * a + b)). lra.
Qed.
