(** * Proofs about truncation strategies (model: Trunc.v) *)
From Coq Require Import Arith Lia List Bool Ring.
From Verif Require Import Fld Ord Prog View Spec Loop Trunc.
Import ListNotations.

(** The squared Frobenius norm of the discarded singular values [s k, ..., s (n-1)]. *)
Definition tailsqr {K : fops} (s : nat -> K) (n k : nat) : K := sum (n - k) (fun i => s (k + i)%nat * s (k + i)%nat)%F.

Section TruncP.
Context {K : ofops} (L : ofield_laws K).
Add Ring KringTr : (rl_ring K (fl_ring K (ol_field K L))).
Let RL := fl_ring K (ol_field K L).
Let OL := ofield_order L.

Lemma tailsqr_S (s : nat -> K) n k : k < n -> tailsqr s n k = (tailsqr s n (S k) + s k * s k)%F.
Proof.
  intros H. unfold tailsqr. replace (n - k) with (S (n - S k)) by lia. rewrite (sum_head RL).
  rewrite Nat.add_0_r.
  rewrite (sum_ext (n - S k) (fun i => s (k + S i)%nat * s (k + S i)%nat)%F (fun i => s (S k + i)%nat * s (S k + i)%nat)%F)
    by (intros i Hi; rewrite Nat.add_succ_r; reflexivity).
  unfold RL. ring.
Qed.

Lemma fle_add_l (x y z : K) : fle x y -> fle f0 z -> fle x (y + z)%F.
Proof.
  intros H1 H2. apply (proj2 (fle_sub L _ _)). replace (y + z - x)%F with ((y - x) + z)%F by ring.
  apply (fle_add_nn L); [apply (proj1 (fle_sub L _ _)); exact H1|exact H2].
Qed.

Lemma tailsqr_mono (s : nat -> K) n k k' : k' <= k <= n -> fle (tailsqr s n k) (tailsqr s n k').
Proof.
  intros H. replace k' with (k - (k - k')) by lia. assert (k - k' <= k) by lia. revert H0. generalize (k - k'). intros d.
  induction d as [|d IH]; intros Hd.
  - rewrite Nat.sub_0_r. apply (ole_refl OL).
  - eapply (ole_trans OL); [apply IH; lia|]. rewrite (tailsqr_S s n (k - S d)) by lia.
    replace (S (k - S d)) with (k - d) by lia. apply fle_add_l; [apply (ole_refl OL)|apply (fsq_nn L)].
Qed.

Lemma wp_findrank_frob sigma (bound : K) (s : nat -> K) (m : mem K) R W : rdok R W (inv sigma) -> vval m sigma s ->
  forall k sum0, k <= vdim sigma -> sum0 = tailsqr s (vdim sigma) k -> (k = vdim sigma \/ fle sum0 bound) ->
  wp R W (findrank_frob sigma bound k sum0) m (fun r m' => m' = m /\ r <= k /\
    (r = vdim sigma \/ fle (tailsqr s (vdim sigma) r) bound) /\
    forall k', k' < r -> flt bound (tailsqr s (vdim sigma) k') = true).
Proof.
  intros Hr Hs. induction k as [|k IH]; intros sum0 Hk E Hb; cbn [findrank_frob].
  - cbn [wp]. repeat split; auto; [subst; exact Hb|]. intros; lia.
  - eapply wp_bind, wp_vload; [exact Hs|lia|exact Hr|]. cbv zeta.
    replace (sum0 + s k * s k)%F with (tailsqr s (vdim sigma) k) by (rewrite (tailsqr_S s (vdim sigma) k) by lia; subst; reflexivity).
    unfold fleb. destruct (flt bound (tailsqr s (vdim sigma) k)) eqn:F; cbn [negb].
    + cbn [wp]. split; [reflexivity|]. split; [lia|]. split; [subst sum0; exact Hb|]. intros k' Hk'.
      eapply (olt_le_trans OL); [exact F|]. apply tailsqr_mono. lia.
    + eapply wp_conseq; [apply IH; [lia|reflexivity|right; exact F]|]. cbv beta. intros r m' (E1 & E2 & E3 & E4).
      repeat split; auto; lia.
Qed.

Lemma wp_findrank_eucl sigma (bound : prog K K) (b : K) (s : nat -> K) (m : mem K) R W : rdok R W (inv sigma) -> vval m sigma s ->
  (forall Q : K -> mem K -> Prop, 0 < vdim sigma -> Q b m -> wp R W bound m Q) ->
  forall n k, n + k = vdim sigma -> (forall k', k' < k -> flt b (s k') = true) ->
  wp R W (findrank_eucl sigma bound n k) m (fun r m' => m' = m /\ r <= vdim sigma /\
    (r < vdim sigma -> fle (s r) b) /\ forall k', k' < r -> flt b (s k') = true).
Proof.
  intros Hr Hs Hb. induction n as [|n IH]; intros k Hk Hp; cbn [findrank_eucl].
  - cbn [wp]. repeat split; auto; lia.
  - eapply wp_bind, wp_vload; [exact Hs|lia|exact Hr|]. apply wp_bind. apply Hb; [lia|].
    destruct (flt b (s k)) eqn:F.
    + apply IH; [lia|]. intros k' Hk'. destruct (Nat.eq_dec k' k) as [->|]; [exact F|]. apply Hp. lia.
    + cbn [wp]. repeat split; auto; try lia.
Qed.
End TruncP.
