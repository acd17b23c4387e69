(** * Concrete scalar structures

    Used only to show that the hypotheses of the theorems can be met:
    canonical rationals (real build) and Gaussian rationals (complex build,
    with a conjugation that is not the identity). *)
From Coq Require Import QArith Qcanon Ring Field Bool List Lia.
From Verif Require Import Fld.

Local Open Scope Qc_scope.

Definition Qcf : fops :=
  FOps Qc 0 1 Qcplus Qcmult Qcminus Qcopp Qcinv (fun x => x) Qc_eq_bool.

Lemma Qcf_ring : ring_laws Qcf.
Proof. constructor; try reflexivity. exact Qcrt. Qed.

Lemma Qc_eqb_iff (x y : Qc) : Qc_eq_bool x y = true <-> x = y.
Proof.
  split.
  - apply Qc_eq_bool_correct.
  - intros ->. unfold Qc_eq_bool. destruct (Qc_eq_dec y y); congruence.
Qed.

Lemma Qcf_field : field_laws Qcf.
Proof.
  constructor.
  - exact Qcf_ring.
  - discriminate.
  - intros x Hx. exact (Qcmult_inv_l x Hx).
  - exact Qc_eqb_iff.
Qed.

(** Gaussian rationals [a + i b]. *)
Definition GQ : Type := Qc * Qc.
Definition gadd (x y : GQ) : GQ := (fst x + fst y, snd x + snd y).
Definition gmul (x y : GQ) : GQ :=
  (fst x * fst y - snd x * snd y, fst x * snd y + snd x * fst y).
Definition gopp (x : GQ) : GQ := (- fst x, - snd x).
Definition gsub (x y : GQ) : GQ := (fst x - fst y, snd x - snd y).
Definition gconj (x : GQ) : GQ := (fst x, - snd x).
Definition ginv (x : GQ) : GQ :=
  let d := / (fst x * fst x + snd x * snd x) in (fst x * d, (- snd x) * d).
Definition geqb (x y : GQ) : bool :=
  Qc_eq_bool (fst x) (fst y) && Qc_eq_bool (snd x) (snd y).

Definition GQf : fops := FOps GQ (0, 0) (1, 0) gadd gmul gsub gopp ginv gconj geqb.

Lemma GQf_ring : ring_laws GQf.
Proof.
  constructor.
  - constructor; cbn; intros; unfold gadd, gmul, gsub, gopp;
      repeat match goal with x : GQ |- _ => destruct x end; cbn; f_equal; ring.
  - intros [a b] [c d]; cbn; unfold gconj, gadd; cbn; f_equal; ring.
  - intros [a b] [c d]; cbn; unfold gconj, gmul; cbn; f_equal; ring.
  - intros [a b]; cbn; unfold gconj; cbn; f_equal; ring.
Qed.

Lemma Qc_sq_nonneg (x : Qc) : 0 <= x * x.
Proof.
  destruct (Qclt_le_dec x 0) as [H|H].
  - replace (x * x) with ((- x) * (- x)) by ring.
    assert (0 <= - x).
    { apply Qclt_le_weak in H. apply Qcopp_le_compat in H.
      replace (- 0) with 0 in H by reflexivity. exact H. }
    replace 0 with (0 * (- x)) by ring. apply Qcmult_le_compat_r; assumption.
  - replace 0 with (0 * x) by ring. apply Qcmult_le_compat_r; assumption.
Qed.

Lemma Qc_sumsq_0 (a b : Qc) : a * a + b * b = 0 -> a = 0 /\ b = 0.
Proof.
  intros H.
  assert (Ha : a * a = 0).
  { apply Qcle_antisym; [|apply Qc_sq_nonneg].
    rewrite <- H. replace (a * a) with (a * a + 0) at 1 by ring.
    apply Qcplus_le_compat; [apply Qcle_refl|apply Qc_sq_nonneg]. }
  assert (Hb : b * b = 0) by (rewrite Ha in H; rewrite <- H; ring).
  split; [apply Qcmult_integral in Ha as [?|?] | apply Qcmult_integral in Hb as [?|?]];
    assumption.
Qed.

Lemma GQf_field : field_laws GQf.
Proof.
  constructor.
  - exact GQf_ring.
  - discriminate.
  - intros [a b] H. cbn. unfold gmul, ginv; cbn.
    assert (Hd : a * a + b * b <> 0).
    { intros E. apply Qc_sumsq_0 in E as [-> ->]. apply H. reflexivity. }
    f_equal; field; exact Hd.
  - intros [a b] [c d]; cbn. unfold geqb; cbn.
    rewrite andb_true_iff, !Qc_eqb_iff. split; [intros [-> ->]; reflexivity|].
    intros [= -> ->]; split; reflexivity.
Qed.

(** Gaussian integers as elements of [GQf]. *)
Definition gq (a b : Z) : GQf := (Q2Qc (inject_Z a), Q2Qc (inject_Z b)).
Definition qz (a : Z) : Qcf := Q2Qc (inject_Z a).
