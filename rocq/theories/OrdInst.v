(** * Ordered scalar structures

    Rationals and reals satisfy the laws of an Archimedean ordered field; they
    show that the hypotheses of the theorems can be met.  IEEE-754 binary64 (the
    type [double]) does not; it is used to show what rounding breaks. *)
From Coq Require Import QArith Qcanon ZArith Bool Lia Lqa.
From Coq Require Import SpecFloat.
From Coq Require Import Reals Lra.
From Verif Require Import Fld Ord Inst.

(** ** Rationals *)
Definition Qc_ltb (x y : Qc) : bool := if Qclt_le_dec x y then true else false.
Definition QcO : ofops := OFOps Qcf Qc_ltb.
Definition qo (a : Z) : QcO := Q2Qc (inject_Z a).

Lemma Qc_ltb_iff (x y : Qc) : Qc_ltb x y = true <-> (x < y)%Qc.
Proof.
  unfold Qc_ltb. destruct (Qclt_le_dec x y) as [H|H]; split; auto; try discriminate.
  intros C. exfalso. exact (Qcle_not_lt _ _ H C).
Qed.

Lemma this_plus (x y : Qc) : (this (x + y)%Qc == this x + this y)%Q.
Proof. apply Qred_correct. Qed.
Lemma this_mult (x y : Qc) : (this (x * y)%Qc == this x * this y)%Q.
Proof. apply Qred_correct. Qed.

Lemma QcO_laws : ofield_laws QcO.
Proof.
  constructor.
  - exact Qcf_field.
  - intros x. apply not_true_iff_false. cbn. rewrite Qc_ltb_iff. intros H. exact (Qclt_not_eq _ _ H eq_refl).
  - cbn. intros x y z. rewrite !Qc_ltb_iff. apply Qclt_trans.
  - cbn. intros x y H. rewrite !Qc_ltb_iff. destruct (Qclt_le_dec x y) as [A|A]; [left; exact A|].
    destruct (Qclt_le_dec y x) as [B|B]; [right; exact B|]. contradiction H. apply Qcle_antisym; assumption.
  - cbn. intros x y z. rewrite !Qc_ltb_iff. unfold Qclt. intros H. rewrite !this_plus. Lqa.lra.
  - cbn. intros x y. rewrite !Qc_ltb_iff. unfold Qclt. intros A B. rewrite this_mult. change (this 0%Qc) with 0%Q in *. Lqa.nra.
Qed.

Lemma pow2_Q k : (this (pow2 (K:=Qcf) k) == inject_Z (2 ^ Z.of_nat k))%Q.
Proof.
  induction k as [|k IH]; [reflexivity|]. cbn [pow2]. change (@fmul Qcf) with Qcmult. rewrite this_mult, IH, Nat2Z.inj_succ, Z.pow_succ_r, inject_Z_mult by lia. reflexivity.
Qed.

Lemma QcO_arch : archimedean QcO.
Proof.
  intros x y Hy. cbn in Hy. apply Qc_ltb_iff in Hy. unfold Qclt in Hy. change (this 0%Qc) with 0%Q in Hy.
  set (q := (this x / this y)%Q). exists (Z.to_nat (Z.abs (Qnum q) + 1)).
  set (k := Z.to_nat _). apply Qc_ltb_iff. unfold Qclt.
  change (@fmul QcO) with Qcmult. change (@pow2 QcO) with (@pow2 Qcf). rewrite this_mult, pow2_Q.
  assert (Hx : (this x == q * this y)%Q) by (unfold q; field; Lqa.lra).
  assert (H : (q < inject_Z (2 ^ Z.of_nat k))%Q).
  { unfold k. rewrite Z2Nat.id by lia. clear. destruct q as [n e]. cbn [Qnum].
    unfold Qlt, inject_Z. cbn [Qnum Qden].
    assert (Z.abs n + 1 < 2 ^ (Z.abs n + 1))%Z by (apply Z.pow_gt_lin_r; lia). nia. }
  rewrite Hx. Lqa.nra.
Qed.

(** ** Reals *)
Definition R_ltb (x y : R) : bool := if Rlt_dec x y then true else false.
Definition R_eqb (x y : R) : bool := if Req_EM_T x y then true else false.
Definition Rf : fops := FOps R 0%R 1%R Rplus Rmult Rminus Ropp Rinv (fun x => x) R_eqb.
Definition RO : ofops := OFOps Rf R_ltb.

Lemma R_ltb_iff x y : R_ltb x y = true <-> (x < y)%R.
Proof. unfold R_ltb. destruct (Rlt_dec x y); split; auto; discriminate || contradiction. Qed.
Lemma R_ltb_false x y : R_ltb x y = false <-> (y <= x)%R.
Proof. unfold R_ltb. destruct (Rlt_dec x y); split; intros; try discriminate; try lra; reflexivity. Qed.

Lemma Rf_field : field_laws Rf.
Proof.
  constructor.
  - constructor; try reflexivity. constructor; cbn; intros; ring.
  - cbn. lra.
  - cbn. intros x H. field. exact H.
  - cbn. intros x y. unfold R_eqb. destruct (Req_EM_T x y); split; auto; discriminate || contradiction.
Qed.

Lemma RO_laws : ofield_laws RO.
Proof.
  constructor.
  - exact Rf_field.
  - intros x. apply not_true_iff_false. cbn. rewrite R_ltb_iff. lra.
  - cbn. intros x y z. rewrite !R_ltb_iff. lra.
  - cbn. intros x y H. rewrite !R_ltb_iff. lra.
  - cbn. intros x y z. rewrite !R_ltb_iff. lra.
  - cbn. intros x y. rewrite !R_ltb_iff. apply Rmult_lt_0_compat.
Qed.

Lemma RO_sqrt : sqrt_laws (K:=RO) sqrt.
Proof.
  intros x H. unfold fle in *. cbn in *. rewrite R_ltb_false in *. split.
  - apply sqrt_pos.
  - apply sqrt_sqrt. exact H.
Qed.

(** ** Binary64 with round to nearest even.  [finv] is [1.0 / x]; the code
    modelled with this instance only divides by 2.0, where [x * (1.0 / 2.0)] and
    [x / 2.0] are the same number. *)
Definition F64f : fops :=
  FOps spec_float (S754_zero false) (SFone 53 1024) (SFadd 53 1024) (SFmul 53 1024) (SFsub 53 1024)
    SFopp (SFdiv 53 1024 (SFone 53 1024)) (fun x => x) SFeqb.
Definition F64 : ofops := OFOps F64f SFltb.
