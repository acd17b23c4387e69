(** * Forward and backward transformation are adjoint *)
From Coq Require Import Arith Lia List Bool Ring.
From Verif Require Import Fld Ord Prog Arr View Loop Spec Cluster Block Hmatrix HmSpec HmP Clusterbasis CbSpec CbP CbP2 CbP3.
Import ListNotations.

Section P8.
Context {K : fops} {G : ofops} (L : ring_laws K).
Add Ring KringCb8 : (rl_ring K L).
Implicit Types (cb c s : cbasis G) (X Y C : nat -> K).

Lemma fwd_of_son M cb X Y i s : fwd_of M cb X Y -> nth_error (cb_son cb) i = Some s ->
  fwd_of M s (shiftv X (nsum i (at_ cb_size (cb_son cb)))) (shiftv Y (cb_k cb + nsum i (at_ cb_ktree (cb_son cb)))).
Proof.
  intros H Hs o r c Hc. destruct (H _ _ _ (nodes_son cb i s o r c Hs Hc)) as [H1 H2]. unfold shiftv. split.
  - intros q Hq. rewrite Nat.add_assoc, H1 by exact Hq. apply sum_ext. intros p Hp. rewrite Nat.add_assoc. reflexivity.
  - intros Hl p Hp. rewrite !Nat.add_assoc. rewrite H2 by assumption. reflexivity.
Qed.

Lemma coef_adj n k (M : nat -> nat -> K) X C : sum n (fun p => fconj (X p) * sum k (fun q => M p q * C q))%F
  = sum k (fun q => fconj (sum n (fun p => fconj (M p q) * X p)) * C q)%F.
Proof.
  etransitivity; [apply (sum_ext n _ (fun p => sum k (fun q => fconj (X p) * (M p q * C q))%F)); intros p Hp; symmetry; apply (sum_mul_l L)|].
  rewrite (sum_swap L). apply sum_ext. intros q Hq. rewrite (sum_conj L), <- (sum_mul_r L). apply sum_ext. intros p Hp.
  rewrite (rl_conj_mul K L), (rl_conj_conj K L). ring.
Qed.

Lemma adjoint M cb : forall X Y C, cbok cb -> fwd_of M cb X Y ->
  dot (cb_size cb) X (bwd_of M cb C) = dot (cb_ktree cb) Y C.
Proof.
  induction cb as [cb IH] using cb_rect'. intros X Y C Hok HF. unfold dot.
  assert (HY : sum (cb_k cb) (fun o => fconj (Y o) * C o)%F = sum (cb_k cb) (fun q => fconj (sum (cb_size cb) (fun p => fconj (M cb p q) * X p)) * C q)%F).
  { apply sum_ext. intros q Hq. destruct (HF 0 0 cb (nodes_self cb)) as [H _]. specialize (H q Hq). cbn [Nat.add] in H. rewrite H. reflexivity. }
  rewrite (cbok_ktree cb Hok), (sum_app L), HY, <- coef_adj.
  destruct (cb_son cb) as [|s0 l0] eqn:El.
  - assert (Hlf : cb_leaf cb = true) by (unfold cb_leaf; rewrite El; reflexivity). rewrite Hlf.
    rewrite <- (sum_add L). apply sum_ext. intros p Hp. rewrite (bwd_leaf L M cb C p El Hp).
    destruct (HF 0 0 cb (nodes_self cb)) as [_ H]. specialize (H Hlf p Hp). cbn [Nat.add] in H. rewrite H. ring.
  - assert (Hlf : cb_leaf cb = false) by (unfold cb_leaf; rewrite El; reflexivity). rewrite Hlf. rewrite <- El in *.
    assert (Hn : cb_son cb <> []) by (rewrite El; discriminate). clear El Hlf s0 l0.
    rewrite (cbok_size cb Hok Hn). rewrite !(sum_nsum L). rewrite <- (sum_add L). apply sum_ext. intros i Hi.
    destruct (nth_ex (cb_son cb) i Hi) as [s Hs]. rewrite !(at_nth _ _ _ _ Hs). destruct (nth_in _ _ _ Hs) as [_ Hin].
    destruct (cbok_son cb s Hok Hin) as (Hoks & _).
    pose proof (IH s Hin _ _ (shiftv C (cb_k cb + nsum i (at_ cb_ktree (cb_son cb)))) Hoks (fwd_of_son M cb X Y i s HF Hs)) as H. unfold dot in H.
    symmetry. etransitivity; [apply f_equal2; [reflexivity|]|].
    + etransitivity; [|symmetry; exact H]. apply sum_ext. intros o Ho. unfold shiftv. rewrite !Nat.add_assoc. reflexivity.
    + rewrite <- (sum_add L). apply sum_ext. intros p Hp. rewrite (bwd_node L M cb C i s p Hok Hs Hp). unfold shiftv. ring.
Qed.
End P8.
