(** * Givens rotations with real and complex numbers *)
From Coq Require Import Arith Lia List Bool ZArith Reals Lra Psatz.
From Verif Require Import Fld Inst Prog View Spec Ord OrdInst Chol CholSpec CholInst Qr QrSpec QrInst Gmres.
Import ListNotations.
Local Open Scope R_scope.

Lemma sqr_pos (x : R) : x <> 0 -> 0 < x * x.
Proof. intros H. destruct (Rlt_le_dec x 0); nra. Qed.
Lemma rt (x : R) : 0 < x -> exists y, sqrt x = y /\ 0 < y /\ y * y = x.
Proof. intros H. exists (sqrt x). split; [reflexivity|]. split; [apply sqrt_lt_R0, H|apply sqrt_sqrt; lra]. Qed.
Lemma R_ltb_t x y : x < y -> R_ltb x y = true. Proof. apply R_ltb_iff. Qed.
Lemma R_ltb_f x y : y <= x -> R_ltb x y = false. Proof. apply R_ltb_false. Qed.

(** Reconstruction of the rotation from [rho]. *)
Lemma givens_real theta (a b : R) : a <> 0 -> a * a <> b * b ->
  let '(c, s, rho) := @givens_find Rf (Rq theta) a b in
  c * c + s * s = 1 /\ c * b - s * a = 0 /\
  @givens_cs Rf (Rq theta) rho = (c, s).
Proof.
  intros Ha Hab. unfold givens_find, abssqr, rrsqrt. cbn. destruct (R_ltb (b * b) (a * a)) eqn:E1.
  - apply R_ltb_iff in E1. cbv zeta.
    destruct (rt (b * / a * (b * / a) + 1)) as (y & -> & Hy & Ey). { pose proof (Rle_0_sqr (b * / a)). unfold Rsqr in *. lra. }
    assert (Ey' : y * y * (a * a) = b * b + a * a) by (rewrite Ey; field; exact Ha).
    assert (Ecs : 1 * / y * (1 * / y) + b * / a * (1 * / y) * (b * / a * (1 * / y)) = 1).
    { apply Rmult_eq_reg_r with (y * y * (a * a)); [|pose proof (sqr_pos a Ha); nra].
      transitivity (b * b + a * a); [field; split; lra|]. rewrite Ey'. ring. }
    split; [exact Ecs|]. split; [field; split; lra|].
    assert (G : @givens_cs Rf (Rq theta) (b * / a * (1 * / y))%R = (1 * / y, b * / a * (1 * / y))%R).
    { set (s := b * / a * (1 * / y)) in *. set (c := 1 * / y) in *. assert (Hc : 0 < c) by (unfold c; rewrite Rmult_1_l; apply Rinv_0_lt_compat, Hy).
      unfold givens_cs, abssqr. cbn. rewrite R_ltb_t by nra. f_equal. replace (1 - s * s) with (Rsqr c) by (unfold Rsqr; lra). apply sqrt_Rsqr. lra. }
    exact G.
  - apply R_ltb_false in E1. rewrite R_ltb_t by lra. cbv zeta. assert (Hb : b <> 0) by (intros ->; pose proof (sqr_pos a Ha); nra).
    destruct (rt (a * / b * (a * / b) + 1)) as (y & -> & Hy & Ey). { pose proof (Rle_0_sqr (a * / b)). unfold Rsqr in *. lra. }
    assert (Ey' : y * y * (b * b) = a * a + b * b) by (rewrite Ey; field; exact Hb).
    assert (Ecs : a * / b * (1 * / y) * (a * / b * (1 * / y)) + 1 * / y * (1 * / y) = 1).
    { apply Rmult_eq_reg_r with (y * y * (b * b)); [|pose proof (sqr_pos b Hb); nra].
      transitivity (a * a + b * b); [field; split; lra|]. rewrite Ey'. ring. }
    split; [exact Ecs|]. split; [field; split; lra|].
    assert (G : @givens_cs Rf (Rq theta) (1 * / (a * / b * (1 * / y)))%R = (a * / b * (1 * / y), 1 * / y)%R).
    { set (s := 1 * / y) in *. set (c := a * / b * s) in *. assert (Hs : 0 < s) by (unfold s; rewrite Rmult_1_l; apply Rinv_0_lt_compat, Hy).
      assert (Hc : c <> 0). { unfold c. apply Rmult_integral_contrapositive. split; [|lra]. apply Rmult_integral_contrapositive. split; [exact Ha|]. apply Rinv_neq_0_compat, Hb. }
      unfold givens_cs, abssqr. cbn.
      assert (Hc2 : c * c < 1) by nra. pose proof (sqr_pos c Hc) as Hp.
      assert (Hi : 1 < 1 * / c * (1 * / c)).
      { replace (1 * / c * (1 * / c)) with (/ (c * c)) by (field; exact Hc). rewrite <- Rinv_1 at 1. apply Rinv_lt_contravar; lra. }
      rewrite R_ltb_f by lra. rewrite R_ltb_t by exact Hi.
      replace (1 * / (1 * / c)) with c by (field; exact Hc). f_equal.
      replace (1 - c * c) with (Rsqr s) by (unfold Rsqr; lra). apply sqrt_Rsqr. lra. }
    exact G.
Qed.

(** Hypotheses of the theorems. *)
Lemma givens_ex : (IZR 3 <> 0 /\ IZR 3 * IZR 3 <> IZR 4 * IZR 4)%R.
Proof. split; lra. Qed.

Lemma tie_find theta : @givens_find Rf (Rq theta) 1%R 1%R = (1, 0, 1)%R.
Proof. unfold givens_find. cbn. unfold abssqr. cbn. rewrite R_ltb_f by lra. reflexivity. Qed.

(** Complex numbers: [a = 2], [b = i]. *)
Definition gcx2 : Cf := (2, 0)%R.
Definition gcxi : Cf := (0, 1)%R.
Lemma cx_find theta : exists c s rho, @givens_find Cf (Cq theta) gcx2 gcxi = (c, s, rho) /\
  abssqr (c * gcx2 + s * gcxi)%F <> (abssqr gcx2 + abssqr gcxi)%F.
Proof.
  unfold givens_find. replace (gtb (Cq theta) (abssqr gcx2) (abssqr gcxi)) with true.
  2: { symmetry. cbn. apply R_ltb_t. lra. }
  eexists _, _, _. split; [reflexivity|].
  set (c := rrsqrt _ _).
  assert (Hc : exists y, c = (y, 0)%R /\ (y * y = 4 / 5)%R).
  { unfold c, rrsqrt. cbn. unfold cx_mul, cx_inv. cbn. set (X := (_ - _ + 1)%R).
    assert (EX : X = (5 / 4)%R) by (unfold X; field). rewrite EX.
    destruct (rt (5 / 4)%R ltac:(lra)) as (y & -> & Hy & Ey). exists (/ y)%R. split.
    - f_equal; field; lra.
    - assert (Hy' : (/ y * / y = / (y * y))%R) by (field; lra). rewrite Hy', Ey. field. }
  destruct Hc as (y & -> & Ey). intros E. apply (f_equal fst) in E. unfold abssqr in E. cbn in E. nra.
Qed.
