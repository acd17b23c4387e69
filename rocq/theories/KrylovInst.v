(** * A positive definite real matrix *)
From Coq Require Import Arith Lia List Bool ZArith Reals Lra Psatz.
From Verif Require Import Fld Inst Prog View Spec KrylovSpec Ord OrdInst Chol CholSpec CholInst Qr QrInst.
Import ListNotations.
Local Open Scope nat_scope.

Definition kA : nat -> nat -> Rf := fun i j => match i, j with 0, 0 => 2%R | 1, 1 => 3%R | _, _ => 1%R end.
Lemma kA_herm : hermitian 2 kA.
Proof. intros i j Hi Hj. destruct i as [|[|i]], j as [|[|j]]; try lia; reflexivity. Qed.
Lemma kA_def : definite 2 kA.
Proof.
  intros v H. unfold dot, mvec in H. cbn in H.
  set (a := v 0) in *. set (b := v 1) in *. assert (a * a = 0 /\ b * b = 0)%R as [H0 H1] by (split; nra).
  intros i Hi. destruct i as [|[|i]]; [|.. |lia]; apply Rsqr_0_uniq; assumption.
Qed.
Lemma id_def n : definite n (K := Rf) idf.
Proof.
  intros v H. apply (rw_sumsq Rr Rr_laws n v).
  assert (E : dot n v v = dot n v (mvec n idf v)).
  { unfold dot. apply sum_ext. intros i Hi. f_equal. unfold mvec.
    rewrite (sum_single (fl_ring Rf Rf_field) n i); [unfold idf; rewrite Nat.eqb_refl; cbn; lra|exact Hi|].
    intros j Hj N. unfold idf. destruct (Nat.eqb_spec i j); [congruence|cbn; lra]. }
  rewrite E, H. cbn. apply negb_true_iff, R_ltb_false. cbn. lra.
Qed.
Lemma R_conj (a : Rf) : fconj a = a. Proof. reflexivity. Qed.
Lemma R_two : (f1 + f1 : Rf)%F <> f0.
Proof. cbn. lra. Qed.
Lemma tol_ok (v : nat -> Rf) : gtb (Rq almost_zero) (rsqrt (Rq almost_zero) f0) ((IZR 1 : Rf) * rsqrt (Rq almost_zero) (dot 2 v v))%F = false.
Proof. cbn. apply R_ltb_false. rewrite sqrt_0. pose proof (sqrt_pos (0 + v 0%nat * v 0%nat + v 1%nat * v 1%nat)%R). lra. Qed.
Definition Rhalf : Rf := (/ 2)%R.
Lemma uz_inv i j : i < 2 -> j < 2 -> mmul 2 (fun i j => (IZR 2 : Rf) * idf i j)%F (fun i j => Rhalf * idf i j : Rf)%F i j = idf i j.
Proof. intros Hi Hj. destruct i as [|[|i]], j as [|[|j]]; try lia; unfold mmul, idf, Rhalf; cbn; cbv beta iota delta [Nat.eqb]; lra. Qed.
Lemma uz_def : definite 1 (schurc 2 (fun i j => Rhalf * idf i j : Rf)%F (fun _ _ => IZR 1 : Rf)).
Proof.
  intros v H. unfold dot, mvec, schurc, mmul, tr, idf, Rhalf in H. cbn in H. cbv beta iota delta [Nat.eqb] in H. set (a := v 0) in *.
  intros i Hi. destruct i as [|i]; [|lia]. apply Rsqr_0_uniq. unfold Rsqr. fold a. cbn in *. lra.
Qed.
Lemma bicg_first : let r : nat -> Rf := @vof Rf (map (map IZR) [[2; 1; 1; 3]; [1; 2]; [0; 1]; [0; 0]; [0; 0]; [0; 0]; [0; 0]]%Z) (Vec 1 0 2 true) in
  dot 2 (mvec 2 kA r) r <> f0 /\ dot 2 r r <> f0.
Proof. cbn. unfold dot, mvec, kA. cbn. split; lra. Qed.
Lemma stab_first : let r : nat -> Rf := @vof Rf (map (map IZR) [[2; 1; 1; 3]; [1; 2]; [0; 1]; [0; 0]; [0; 0]; [0; 0]; [0; 0]]%Z) (Vec 1 0 2 true) in
  let s := bss 2 kA r r r in dot 2 (mvec 2 kA s) (mvec 2 kA s) <> f0.
Proof.
  intros r s. assert (H0 : s 0 = (1 - 5 / 18 * 4)%R) by (unfold s, bss, bsal, dot, mvec, kA; cbn; field).
  assert (H1 : s 1 = (2 - 5 / 18 * 7)%R) by (unfold s, bss, bsal, dot, mvec, kA; cbn; field).
  clearbody s. unfold dot, mvec, kA. cbn. rewrite H0, H1. lra.
Qed.
