(** * Comparisons of absolute values for rational, real and complex numbers *)
From Coq Require Import Arith Lia List Bool.
From Coq Require Import Qcanon Reals Lra.
From Verif Require Import Fld Spec Ord OrdInst Inst Qr QrSpec QrInst CholInst AcaSpec.

Lemma ordered_gt (K : ofops) : ofield_laws K -> (forall x : K, fconj x = x) ->
  (forall x : K, fle f0 (x * x)%F) -> gt_laws (fun x y : K => flt y x).
Proof.
  intros L Hc Hs. constructor.
  - intros a. apply (ol_irrefl K L).
  - intros a b H. destruct (flt a b) eqn:E; [|reflexivity]. rewrite <- (ol_irrefl K L b). symmetry. eapply (ol_trans K L); eassumption.
  - intros a b c H1 H2. destruct (flt c a) eqn:E; [|reflexivity]. exfalso.
    destruct (feqb a b) eqn:Eab.
    + apply (fl_eqb K (ol_field K L)) in Eab. subst. congruence.
    + destruct (ol_total K L a b) as [H|H]; [intros ->; rewrite (proj2 (fl_eqb K (ol_field K L) b b) eq_refl) in Eab; discriminate| |congruence].
      rewrite (ol_trans K L c a b E H) in H2. discriminate.
  - intros a. unfold abssqr. rewrite Hc. apply Hs.
Qed.

Definition Qgt (x y : Qcf) : bool := Qc_ltb y x.
Lemma Qgt_laws : gt_laws Qgt.
Proof.
  apply (ordered_gt QcO QcO_laws); [reflexivity|]. intros x. unfold fle. destruct (flt (x * x)%F (f0 : QcO)) eqn:E; [|reflexivity].
  exfalso. apply Qc_ltb_iff in E. apply (Qcanon.Qclt_not_le _ _ E). exact (Qc_sq_nonneg x).
Qed.

Lemma Cgt_laws : gt_laws (fun x y : Cf => R_ltb (fst y) (fst x)).
Proof.
  constructor.
  - intros a. apply R_ltb_false. lra.
  - intros a b. rewrite R_ltb_iff, R_ltb_false. lra.
  - intros a b c. rewrite !R_ltb_false. lra.
  - intros [a b]. apply R_ltb_false. cbn. nra.
Qed.

(** Gaussian rationals, compared by their real parts. *)
Definition Ggt (x y : GQf) : bool := Qc_ltb (fst y) (fst x).
Lemma Ggt_laws : gt_laws Ggt.
Proof.
  unfold Ggt. constructor.
  - intros a. apply (gl_irr Qgt Qgt_laws).
  - intros a b. apply (gl_asym Qgt Qgt_laws).
  - intros a b c. apply (gl_trans Qgt Qgt_laws).
  - intros [a b]. unfold abssqr. cbn. unfold gmul, gconj. cbn.
    destruct (Qc_ltb _ _) eqn:E; [|reflexivity]. exfalso. apply Qc_ltb_iff in E.
    apply (Qcanon.Qclt_not_le _ _ E).
    replace (a * a - - b * b)%Qc with (a * a + b * b)%Qc by ring.
    replace 0%Qc with (0 + 0)%Qc by ring. apply Qcanon.Qcplus_le_compat; apply Qc_sq_nonneg.
Qed.
