(** * Krylov methods: BiCGStab and Uzawa sequences *)
From Coq Require Import Arith Lia List Bool Ring Field.
From Verif Require Import Fld Prog View Spec Loop Factor Lr LrP QrP Krylov KrylovSpec KrylovP KrylovP2 KrylovP3 KrylovP4 KrylovP5.
Import ListNotations.

Section KrylovP7.
Context {K : fops} (L : field_laws K).
Let RL := fl_ring K L.
Add Ring KringK : (rl_ring K (fl_ring K L)).
Add Field KfieldK : (K_field L).
Notation vect := (nat -> K).

Lemma bicgstab_seq n (A : nat -> nat -> K) (bf xf : vect) : bicgstabseq n A bf (sX n A bf xf) (sP n A bf xf).
Proof.
  set (X := sX n A bf xf). set (P := sP n A bf xf). set (Rr := sR n A bf xf). set (t := snd (sa0 n A bf xf)).
  assert (ER : forall k i, i < n -> resid n A bf X k i = Rr k i) by (intros k i Hi; symmetry; apply (sa_res L n A bf xf k i Hi)).
  assert (E0 : forall i, t i = Rr 0 i) by reflexivity.
  assert (ED : forall k u, dot n (resid n A bf X k) u = dot n (Rr k) u) by (intros; apply dot_ext'; auto).
  assert (ED' : forall k u, dot n u (resid n A bf X k) = dot n u (Rr k)) by (intros; apply dot_ext'; auto).
  assert (Eal : forall k, bsal n A (resid n A bf X 0) (resid n A bf X k) (P k) = sal n A t (X k, Rr k, P k)).
  { intros k. unfold bsal, sal. rewrite ED, !ED'. reflexivity. }
  assert (Es : forall k i, i < n -> bss n A (resid n A bf X 0) (resid n A bf X k) (P k) i = shalf n A t (X k, Rr k, P k) i).
  { intros k i Hi. unfold bss. rewrite Eal, ER by exact Hi. unfold shalf. ring. }
  assert (EM : forall k i, mvec n A (bss n A (resid n A bf X 0) (resid n A bf X k) (P k)) i = mvec n A (shalf n A t (X k, Rr k, P k)) i)
    by (intros; apply mvec_ext; auto).
  assert (Eom : forall k, bsom n A (bss n A (resid n A bf X 0) (resid n A bf X k) (P k)) = som n A t (X k, Rr k, P k)).
  { intros k. unfold bsom, som. f_equal; apply dot_ext'; intros; auto. }
  assert (Eom2 : forall k, bsom n A (shalf n A t (X k, Rr k, P k)) = som n A t (X k, Rr k, P k)) by reflexivity.
  constructor.
  - intros i Hi. rewrite ER by exact Hi. reflexivity.
  - intros k i Hi r al s. unfold al, s, r. rewrite Eom, Eal, Es by exact Hi. unfold X at 1, sX. rewrite sas_S. cbn [san fst snd]. reflexivity.
  - intros k i Hi r al s om be. unfold be, om, al, s, r. rewrite Eom, Eal, !ED, ER, !ED' by exact Hi.
    assert (EP : P (S k) i = (P k i * (dot n (Rr (S k)) t / dot n (Rr k) t * sal n A t (X k, Rr k, P k) / som n A t (X k, Rr k, P k)) + f1 * Rr (S k) i
      + fopp (dot n (Rr (S k)) t / dot n (Rr k) t * sal n A t (X k, Rr k, P k) / som n A t (X k, Rr k, P k)) * som n A t (X k, Rr k, P k) * mvec n A (P k) i)%F).
    { assert (ES : Rr (S k) = snd (fst (san n A t (X k, Rr k, P k)))) by (unfold Rr at 1, sR; rewrite sas_S; reflexivity).
      assert (EPk : P (S k) = snd (san n A t (X k, Rr k, P k))) by (unfold P at 1, sP; rewrite sas_S; reflexivity).
      rewrite ES, EPk. reflexivity. }
    rewrite EP. change t with (Rr 0).
    set (bb := (dot n (Rr (S k)) (Rr 0%nat) / _ * _ / _)%F). ring.
Qed.

(** The half step is orthogonal to the new residual. *)
Lemma bicgstab_min n (A : nat -> nat -> K) b X P k : bicgstabseq n A b X P ->
  let r := resid n A b X in let s := bss n A (r 0) (r k) (P k) in
  dot n (mvec n A s) (mvec n A s) <> f0 -> dot n (mvec n A s) (r (S k)) = f0.
Proof.
  intros HS r s Hd.
  assert (E : forall i, i < n -> r (S k) i = (s i - bsom n A s * mvec n A s i)%F).
  { intros i Hi. unfold r at 1, resid.
    rewrite (mvec_ext n A A (X (S k)) (fun j => X k j + bsal n A (r 0%nat) (r k) (P k) * P k j + bsom n A s * s j)%F)
      by (auto; intros; apply (st_X _ _ _ _ _ HS); assumption).
    rewrite !(mvec_add L). unfold s at 3, bss. unfold r at 3, resid. ring. }
  rewrite (dot_ext' n _ (mvec n A s) (r (S k)) (fun i => s i - bsom n A s * mvec n A s i)%F) by auto.
  rewrite (dot_sub_r L). unfold bsom. field. exact Hd.
Qed.

(** ** Uzawa: conjugate gradients for the Schur complement *)
Section Uz.
Variables n1 n2 : nat.
Variables A11 N11 B N : nat -> nat -> K.
Notation Bt := (tr true B).
Hypothesis HA11 : hermitian n1 A11.
Hypothesis Hinv : forall i j, i < n1 -> j < n1 -> mmul n1 A11 N11 i j = idf i j.
Variables b1 b2 y : vect.
Variable pre : vect -> vect.
Hypothesis Hpre : forall v i, i < n2 -> pre v i = mvec n2 N v i.
Notation X1 := (u1 n1 n2 N11 B pre b1 b2 y). Notation X2 := (u2 n1 n2 N11 B pre b1 b2 y).
Notation R := (uR n1 n2 N11 B pre b1 b2 y). Notation P := (uP n1 n2 N11 B pre b1 b2 y).

Lemma uz_X1N k i : X1 k i = mvec n1 N11 (fun j => b1 j - f1 * mvec n2 Bt (X2 k) j)%F i.
Proof using L.
  revert i. induction k as [|k IH]; intros i.
  - cbn. apply mvec_ext; auto. intros. cbn [tr]. ring.
  - rewrite (uz_X1 L n1 n2 N11 B pre b1 b2 y), IH.
    rewrite (mvec_ext n1 N11 N11 (fun j => b1 j - f1 * mvec n2 Bt (X2 (S k)) j)%F
      (fun j => (b1 j - f1 * mvec n2 Bt (X2 k) j) - ul n1 n2 N11 B pre b1 b2 y k * mvec n2 Bt (P k) j)%F).
    + rewrite !(mvec_sub L). reflexivity.
    + auto.
    + intros j Hj. rewrite (mvec_ext n2 Bt Bt (X2 (S k)) (fun l => X2 k l + ul n1 n2 N11 B pre b1 b2 y k * P k l)%F) by (auto; intros; apply uz_X2).
      rewrite (mvec_add L). ring.
Qed.
Definition uzrhs i : K := (mvec n1 B (mvec n1 N11 b1) i - b2 i)%F.
Lemma uz_resid k i : i < n2 -> resid n2 (schurc n1 N11 B) uzrhs X2 k i = R k i.
Proof using L.
  intros Hi. rewrite (uz_row2 L). unfold resid, uzrhs.
  rewrite (mvec_ext n1 B B (X1 k) (fun j => mvec n1 N11 b1 j - f1 * mvec n1 N11 (mvec n2 Bt (X2 k)) j)%F).
  - rewrite (mvec_sub L). change (schurc n1 N11 B) with (schur n1 N11 B). rewrite <- (schur_eq L n1 n2 N11 B). ring.
  - auto.
  - intros j Hj. rewrite uz_X1N, (mvec_sub L). reflexivity.
Qed.
Lemma uzawa_seq : cgseq n2 (schurc n1 N11 B) N uzrhs X2 P.
Proof using L HA11 Hinv Hpre.
  assert (EQ : forall k i, i < n2 -> mvec n2 N (resid n2 (schurc n1 N11 B) uzrhs X2 k) i = pre (R k) i).
  { intros k i Hi. rewrite Hpre by exact Hi. apply mvec_ext; auto. intros; apply uz_resid; assumption. }
  constructor.
  - intros i Hi. rewrite EQ by exact Hi. reflexivity.
  - intros k i Hi. rewrite (uz_X2 n1 n2 N11 B pre b1 b2 y), (ul_eq L n1 n2 A11 N11 B pre HA11 Hinv). unfold lam, gam.
    rewrite (dot_ext' n2 _ (P k) (resid n2 (schurc n1 N11 B) uzrhs X2 k) (R k)) by (auto; intros; apply uz_resid; assumption). reflexivity.
  - intros k i Hi. rewrite (uz_P L n1 n2 A11 N11 B pre HA11 Hinv) by exact Hi. rewrite EQ by exact Hi. unfold muc, gam.
    rewrite (dot_ext' n2 _ (mvec n2 (schurc n1 N11 B) (P k)) (mvec n2 N (resid n2 (schurc n1 N11 B) uzrhs X2 (S k))) (pre (R (S k)))) by auto.
    reflexivity.
Qed.
Lemma uzawa_end : hermitian n2 N -> definite n2 (schurc n1 N11 B) -> definite n2 N ->
  exists k, k <= n2 /\ forall i, i < n2 -> mvec n1 B (X1 k) i = b2 i.
Proof using L HA11 Hinv Hpre.
  intros HN dS dN.
  destruct (seq_end L n2 (schurc n1 N11 B) N uzrhs X2 P (schur_herm L n1 n2 A11 N11 B HA11 Hinv) HN uzawa_seq dS dN) as (k & Hk & E).
  exists k. split; [exact Hk|]. intros i Hi. assert (H := uz_resid k i Hi). rewrite (uz_row2 L) in H. unfold resid in H. rewrite (E i Hi) in H.
  transitivity ((mvec n1 B (X1 k) i - b2 i) + b2 i)%F; [ring|]. rewrite <- H. ring.
Qed.
End Uz.
End KrylovP7.
