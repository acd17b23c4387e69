(** * Errors of truncated matrices *)
From Coq Require Import Arith Lia List Bool Permutation Ring.
From Verif Require Import Fld Ord Prog Arr View Loop Line Spec RkSpec CopSpec OrthoP3 HtSpec CholP5 NormP TruncP.
Import ListNotations.

(** Squared Frobenius norm of an [r x c] matrix *)

Section P.
Context {K : fops} (L : field_laws K).
Notation RL := (fl_ring K L).
Add Ring KringHt5 : (rl_ring K (fl_ring K L)).
Implicit Types (U V D E : nat -> nat -> K) (s : nat -> K).

Definition cut (k : nat) s (l : nat) : K := if l <? k then f0 else s l.
Lemma sum_cut n k s (f : nat -> K) : k <= n -> (sum n (fun l => f l * s l) = sum k (fun l => f l * s l) + sum n (fun l => f l * cut k s l))%F.
Proof.
  intros Hk. replace n with (k + (n - k)) by lia. rewrite !(sum_app RL).
  rewrite (sum_0 RL k (fun l => f l * cut k s l)%F).
  - transitivity (sum k (fun l => f l * s l) + (f0 + sum (n - k) (fun i => f (k + i)%nat * cut k s (k + i)%nat)))%F; [|ring].
    replace (f0 + sum (n - k) (fun i => f (k + i)%nat * cut k s (k + i)%nat))%F with (sum (n - k) (fun i => f (k + i)%nat * cut k s (k + i)%nat))%F by ring.
    f_equal. apply sum_ext. intros i _. unfold cut. destruct (Nat.ltb_spec (k + i) k); [lia|reflexivity].
  - intros l Hl. unfold cut. destruct (Nat.ltb_spec l k); [ring|lia].
Qed.
(** The difference consists of the dropped terms *)
Lemma diff_cut orth good chosen r c D D' k : truncated orth good chosen r c D D' k -> exists n U s V, k <= n /\ n <= Nat.min r c /\ good n s /\ chosen n s k /\ (forall l, l < n -> fconj (s l) = s l) /\
  (orth -> orthonormal r n U /\ orthonormal c n V) /\
  (forall i j, i < r -> j < c -> D i j = sum n (fun l => U i l * (fconj (V j l) * s l))%F) /\
  (forall i j, i < r -> j < c -> (D i j - D' i j)%F = sum n (fun l => U i l * (fconj (V j l) * cut k s l))%F).
Proof.
  intros (n & U & s & V & A1 & A0 & A2 & A3 & A4 & A5 & A6 & A7). exists n, U, s, V. repeat (split; [assumption|]). split; intros i j Hi Hj.
  - rewrite A6 by assumption. apply sum_ext. intros l _. ring.
  - rewrite A6, A7 by assumption.
    transitivity (sum n (fun l => (U i l * fconj (V j l)) * s l) - sum k (fun l => (U i l * fconj (V j l)) * s l))%F; [f_equal; apply sum_ext; intros l _; ring|].
    rewrite (sum_cut n k s (fun l => (U i l * fconj (V j l))%F) A1).
    transitivity (sum n (fun l => (U i l * fconj (V j l)) * cut k s l))%F; [ring|]. apply sum_ext. intros l _. ring.
Qed.
Lemma fro2_svd r c n U s V E : orthonormal r n U -> orthonormal c n V -> (forall l, l < n -> fconj (s l) = s l) ->
  (forall i j, i < r -> j < c -> E i j = sum n (fun l => U i l * (fconj (V j l) * s l))%F) -> fro2 r c E = sum n (fun l => s l * s l)%F.
Proof.
  intros HU HV Hs HE. unfold fro2.
  transitivity (sum c (fun j => sum n (fun l => fconj (fconj (V j l) * s l) * (fconj (V j l) * s l))))%F.
  { apply sum_ext. intros j Hj. rewrite <- (orth_comp L r n U (fun l => fconj (V j l) * s l)%F (fun l => fconj (V j l) * s l)%F HU). apply sum_ext. intros i Hi. rewrite HE by assumption. reflexivity. }
  rewrite (sum_swap RL). apply sum_ext. intros l Hl.
  transitivity (sum c (fun j => (s l * s l) * (fconj (V j l) * V j l)))%F.
  { apply sum_ext. intros j _. rewrite (rl_conj_mul K RL), (rl_conj_conj K RL), Hs by exact Hl. ring. }
  rewrite (sum_mul_l RL), (HV l l Hl Hl). unfold idf. rewrite Nat.eqb_refl. ring.
Qed.
Lemma cut_real n k s : (forall l, l < n -> fconj (s l) = s l) -> forall l, l < n -> fconj (cut k s l) = cut k s l.
Proof. intros Hs l Hl. unfold cut. destruct (l <? k); [apply (fconj_0 RL)|apply Hs, Hl]. Qed.
Lemma sumsq_cut n k s : k <= n -> sum n (fun l => cut k s l * cut k s l)%F = sum (n - k) (fun i => s (k + i)%nat * s (k + i)%nat)%F.
Proof.
  intros Hk. replace n with (k + (n - k)) at 1 by lia. rewrite (sum_app RL). rewrite (sum_0 RL k).
  - transitivity (sum (n - k) (fun i => cut k s (k + i)%nat * cut k s (k + i)%nat))%F; [ring|].
    apply sum_ext. intros i _. unfold cut. destruct (Nat.ltb_spec (k + i) k); [lia|reflexivity].
  - intros l Hl. unfold cut. destruct (Nat.ltb_spec l k); [ring|lia].
Qed.
End P.

Section Ordered.
Context {K : ofops} (OF : ofield_laws K).
Notation L := (ol_field K OF).
Notation RL := (fl_ring K L).
Add Ring KringHt5o : (rl_ring K (fl_ring K L)).
Notation OL := (ofield_order OF).
Implicit Types (U V D E : nat -> nat -> K) (s x : nat -> K).
(** All scalars are real *)
Definition real_scalars : Prop := forall y : K, fconj y = y.
Hypothesis Hreal : real_scalars.

Lemma fle_mul_l (a b c : K) : fle f0 c -> fle a b -> fle (c * a)%F (c * b)%F.
Proof.
  intros Hc Hab. apply (proj2 (fle_sub OF _ _)). replace (c * b - c * a)%F with (c * (b - a))%F by ring. apply (fle_mul_nn OF); [exact Hc|]. apply (proj1 (fle_sub OF _ _)), Hab.
Qed.
Lemma sq_mono (a b : K) : fle f0 a -> fle a b -> fle (a * a)%F (b * b)%F.
Proof.
  intros Ha Hab. apply (ole_trans OL _ (a * b)%F).
  - apply fle_mul_l; assumption.
  - replace (a * b)%F with (b * a)%F by ring. apply fle_mul_l; [eapply (ole_trans OL); eassumption|assumption].
Qed.
Lemma sum_le n (f g : nat -> K) : (forall i, i < n -> fle (f i) (g i)) -> fle (sum n f) (sum n g).
Proof. induction n as [|n IH]; intros HE; cbn [sum]; [apply (ole_refl OL)|]. apply (fle_add OF); [apply IH; intros; apply HE; lia|apply HE; lia]. Qed.
Lemma sum_nn n (f : nat -> K) : (forall i, i < n -> fle f0 (f i)) -> fle f0 (sum n f).
Proof. intros HE. rewrite <- (sum_0 RL n (fun _ => f0)) by auto. apply sum_le, HE. Qed.
Lemma bessel c n V x : orthonormal c n V ->
  fle (sum n (fun l => sum c (fun j => V j l * x j) * sum c (fun j => V j l * x j)))%F (sum c (fun j => x j * x j))%F.
Proof.
  intros HV. set (t := fun l => sum c (fun j => V j l * x j)%F). change (fle (sum n (fun l => t l * t l))%F (sum c (fun j => x j * x j))%F).
  set (y := fun j => sum n (fun l => V j l * t l)%F). apply (proj2 (fle_sub OF _ _)).
  assert (E1 : sum c (fun j => y j * y j)%F = sum n (fun l => t l * t l)%F).
  { pose proof (orth_comp L c n V t t HV) as HO. etransitivity; [|etransitivity; [exact HO|]]; apply sum_ext; intros i _; rewrite Hreal; reflexivity. }
  assert (E2 : sum c (fun j => x j * y j)%F = sum n (fun l => t l * t l)%F).
  { unfold y. transitivity (sum c (fun j => sum n (fun l => t l * (V j l * x j))))%F.
    - apply sum_ext. intros j _. rewrite <- (sum_mul_l RL). apply sum_ext. intros l _. ring.
    - rewrite (sum_swap RL). apply sum_ext. intros l _. rewrite (sum_mul_l RL). reflexivity. }
  replace (sum c (fun j => x j * x j) - sum n (fun l => t l * t l))%F with (sum c (fun j => (x j - y j) * (x j - y j)))%F.
  { apply sum_nn. intros i _. apply (fsq_nn OF). }
  transitivity (sum c (fun j => x j * x j) + fopp (f1 + f1) * sum c (fun j => x j * y j) + sum c (fun j => y j * y j))%F; [|rewrite E1, E2; ring].
  rewrite <- (sum_mul_l RL), <- !(sum_add RL). apply sum_ext. intros j _. ring.
Qed.
(** A matrix with singular values between zero and [B] does not amplify vectors by more than [B]. *)
Lemma spectral r c n U s V E x (B : K) : orthonormal r n U -> orthonormal c n V -> fle f0 B -> (forall l, l < n -> fle f0 (s l) /\ fle (s l) B) ->
  (forall i j, i < r -> j < c -> E i j = sum n (fun l => U i l * (fconj (V j l) * s l))%F) ->
  fle (sum r (fun i => mvec c E x i * mvec c E x i))%F (B * B * sum c (fun j => x j * x j))%F.
Proof.
  intros HU HV HB Hs HE. set (t := fun l => sum c (fun j => V j l * x j)%F).
  assert (E1 : forall i, i < r -> mvec c E x i = sum n (fun l => U i l * (s l * t l))%F).
  { intros i Hi. unfold mvec. transitivity (sum c (fun j => sum n (fun l => (U i l * s l) * (V j l * x j))))%F.
    - apply sum_ext. intros j Hj. rewrite HE by assumption. rewrite <- (sum_mul_r RL). apply sum_ext. intros l _. rewrite Hreal. ring.
    - rewrite (sum_swap RL). apply sum_ext. intros l _. rewrite (sum_mul_l RL). unfold t. ring. }
  replace (sum r (fun i => mvec c E x i * mvec c E x i))%F with (sum n (fun l => (s l * t l) * (s l * t l)))%F.
  2: { pose proof (orth_comp L r n U (fun l => s l * t l)%F (fun l => s l * t l)%F HU) as HO. symmetry. etransitivity; [|etransitivity; [exact HO|]]; apply sum_ext; intros i Hi; rewrite Hreal; [rewrite E1 by exact Hi|]; reflexivity. }
  apply (ole_trans OL _ (sum n (fun l => (B * B) * (t l * t l)))%F).
  - apply sum_le. intros l Hl. destruct (Hs l Hl) as [H1 H2]. replace ((s l * t l) * (s l * t l))%F with ((t l * t l) * (s l * s l))%F by ring. replace (B * B * (t l * t l))%F with ((t l * t l) * (B * B))%F by ring.
    apply fle_mul_l; [apply (fsq_nn OF)|apply sq_mono; assumption].
  - rewrite (sum_mul_l RL). apply fle_mul_l; [apply (fsq_nn OF)|]. apply bessel, HV.
Qed.
End Ordered.
