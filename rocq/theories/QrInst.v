(** * Real and complex numbers with the operations used for QR decompositions *)
From Coq Require Import Arith Lia List Bool.
From Coq Require Import Reals Lra.
From Verif Require Import Fld Spec OrdInst Chol CholSpec CholInst Qr QrSpec.
Local Open Scope nat_scope.

(** ** Real numbers, [theta] is H2_ALMOST_ZERO *)
Definition Rq (theta : R) : qops Rf :=
  Qops Rf Rr (fun x => if R_ltb x 0 then (-1)%R else 1%R) (fun x => negb (R_ltb theta x)) (fun x y => R_ltb y x).

Lemma Rq_laws theta : (0 <= theta)%R -> qlaws (Rq theta).
Proof.
  intros Ht. constructor.
  - exact Rr_laws.
  - cbn. apply sqrt_0.
  - cbn. intros x. replace (x * x)%R with (Rsqr x) by reflexivity. rewrite sqrt_Rsqr_abs.
    destruct (R_ltb x 0) eqn:E.
    + apply R_ltb_iff in E. rewrite Rabs_left by exact E. ring.
    + apply R_ltb_false in E. rewrite Rabs_pos_eq by exact E. ring.
  - cbn. intros x. destruct (R_ltb x 0); ring.
  - cbn. apply negb_true_iff, R_ltb_false, Ht.
  - cbn. intros a b. rewrite !negb_true_iff, !R_ltb_false. nra.
  - cbn. intros a. apply R_ltb_false. lra.
  - cbn. intros a b c. rewrite !R_ltb_false, R_ltb_iff. lra.
  - cbn. intros a b c. rewrite !R_ltb_false. nra.
Qed.

(** ** Complex numbers

    Simplification: [SIGN1(x)] (Library/basic.h:378-391) is 1 only for [x = 0], while the
    code takes 1 for all [x] with [|x|^2 <= H2_ALMOST_ZERO]. *)
Definition cx_sgn1 (x : Cx) : Cx :=
  if R_eqb (fst x * fst x + snd x * snd x) 0 then (1, 0)%R
  else (fst x * / sqrt (fst x * fst x + snd x * snd x), snd x * / sqrt (fst x * fst x + snd x * snd x))%R.
Definition Cq (theta : R) : qops Cf :=
  Qops Cf Cr cx_sgn1 (fun x => negb (R_ltb theta (fst x))) (fun x y => R_ltb (fst y) (fst x)).

Lemma cx_norm2 (a b : R) : (a * a + b * b <> 0 -> 0 < a * a + b * b)%R.
Proof. intros N. pose proof (Rle_0_sqr a). pose proof (Rle_0_sqr b). unfold Rsqr in *. lra. Qed.

Lemma Cq_laws theta : (0 <= theta)%R -> qlaws (Cq theta).
Proof.
  intros Ht. constructor.
  - exact Cr_laws.
  - cbn. rewrite sqrt_0. reflexivity.
  - intros [a b]. cbn. unfold cx_sgn1, cx_mul. cbn.
    replace (a * a - - b * b)%R with (a * a + b * b)%R by ring.
    destruct (R_eqb (a * a + b * b) 0) eqn:E.
    + apply R_eqb_iff in E. assert (a = 0)%R by nra. assert (b = 0)%R by nra. subst. rewrite E, sqrt_0. cbn. f_equal; ring.
    + assert (N : (a * a + b * b <> 0)%R) by (intros N; apply R_eqb_iff in N; congruence).
      pose proof (sqrt_lt_R0 _ (cx_norm2 a b N)). cbn. f_equal; field; lra.
  - intros [a b]. cbn. unfold cx_sgn1, cx_mul, cx_conj. cbn.
    destruct (R_eqb (a * a + b * b) 0) eqn:E; cbn; [f_equal; ring|].
    assert (N : (a * a + b * b <> 0)%R) by (intros N; apply R_eqb_iff in N; congruence).
    pose proof (cx_norm2 a b N) as N'. pose proof (sqrt_lt_R0 _ N') as N2. pose proof (sqrt_sqrt _ (Rlt_le _ _ N')) as N3.
    set (s := sqrt (a * a + b * b)) in *.
    f_equal; [|field; lra].
    replace (a * / s * (a * / s) - - (b * / s) * (b * / s))%R with ((a * a + b * b) * / (s * s))%R by (field; lra).
    rewrite N3. field. lra.
  - cbn. apply negb_true_iff, R_ltb_false, Ht.
  - intros [a a'] [b b']. cbn. rewrite !negb_true_iff, !R_ltb_false. nra.
  - cbn. intros a. apply R_ltb_false. lra.
  - cbn. intros a b c. rewrite !R_ltb_false, R_ltb_iff. lra.
  - intros [a a'] [b b'] [c c']. cbn. rewrite !R_ltb_false. nra.
Qed.

(** The threshold of the code. *)
Definition almost_zero : R := (/ 10 ^ 300)%R.
Lemma almost_zero_pos : (0 < almost_zero)%R.
Proof. apply Rinv_0_lt_compat, pow_lt. lra. Qed.

(** A positive number whose square is below the threshold. *)
Definition smallR : Rf := (/ 10 ^ 160)%R.
Lemma smallR_pos : (0 < smallR)%R.
Proof. apply Rinv_0_lt_compat, pow_lt. lra. Qed.
Lemma smallR_sq : (smallR * smallR <= almost_zero)%R.
Proof.
  unfold smallR, almost_zero. rewrite <- Rinv_mult, <- pow_add. change (160 + 160) with (300 + 20).
  apply Rinv_le_contravar; [apply pow_lt; lra|]. rewrite pow_add.
  rewrite <- (Rmult_1_r (10 ^ 300)) at 1.
  apply Rmult_le_compat_l; [apply pow_le; lra|apply pow_R1_Rle; lra].
Qed.
Lemma small_tiny : tiny (Rq almost_zero) (0 + 0 * 0 + smallR * smallR)%R = true.
Proof. cbn. apply negb_true_iff, R_ltb_false. pose proof smallR_sq. lra. Qed.

Lemma almost_zero_100 : (almost_zero <= / 100)%R.
Proof.
  unfold almost_zero. apply Rinv_le_contravar; [lra|]. change 300 with (2 + 298). rewrite pow_add.
  pose proof (pow_R1_Rle 10 298 ltac:(lra)). nra.
Qed.
Lemma near_identity (a b c d v w : R) :
  (a * a + c * c <= / 100)%R -> (b * b + d * d <= / 100)%R ->
  ((1 - a) * v + (0 - b) * w = 0)%R -> ((0 - c) * v + (1 - d) * w = 0)%R -> v = 0%R /\ w = 0%R.
Proof.
  intros H1 H2 E1 E2.
  assert (Ha : (-/10 <= a <= /10)%R) by nra. assert (Hb : (-/10 <= b <= /10)%R) by nra.
  assert (Hc : (-/10 <= c <= /10)%R) by nra. assert (Hd : (-/10 <= d <= /10)%R) by nra.
  assert (D : (0 < (1 - a) * (1 - d) - b * c)%R) by nra.
  assert (P1 : (((1 - a) * (1 - d) - b * c) * v = 0)%R).
  { replace (((1 - a) * (1 - d) - b * c) * v)%R with ((1 - d) * ((1 - a) * v + (0 - b) * w) + b * ((0 - c) * v + (1 - d) * w))%R by ring.
    rewrite E1, E2. ring. }
  assert (P2 : (((1 - a) * (1 - d) - b * c) * w = 0)%R).
  { replace (((1 - a) * (1 - d) - b * c) * w)%R with (c * ((1 - a) * v + (0 - b) * w) + (1 - a) * ((0 - c) * v + (1 - d) * w))%R by ring.
    rewrite E1, E2. ring. }
  apply Rmult_integral in P1, P2. lra.
Qed.
