(** * Cross approximation: the algebra of the elimination *)
From Coq Require Import Arith Lia List Bool Ring FinFun.
From Verif Require Import Fld Prog Arr View Spec Loop FactorP FactorSpec Qr QrP2 AcaSpec.
Import ListNotations.

(** ** Permutations given by sequences of exchanges *)
Lemma swapc_lt k q n j : k < n -> q < n -> j < n -> swapc k q j < n.
Proof. intros. unfold swapc. bsplit; lia. Qed.
Lemma swapc_low k q j : j < k -> k <= q -> swapc k q j = j.
Proof. intros. unfold swapc. bsplit; lia. Qed.
Lemma swapc_ge k q l j : l <= j -> l <= k -> l <= q -> l <= swapc k q j.
Proof. intros. unfold swapc. bsplit; lia. Qed.
Lemma swapc_invol k q j : swapc k q (swapc k q j) = j.
Proof. unfold swapc. bsplit; lia. Qed.
Lemma swapc_k k q : swapc k q k = q.
Proof. unfold swapc. bsplit; lia. Qed.

(** After [k] exchanges of [i] and [p i] the entry [x] of the array of pivots is [pperm p k x]. *)
Fixpoint pperm (p : nat -> nat) (k x : nat) : nat :=
  match k with 0 => x | S k' => pperm p k' (swapc k' (p k') x) end.
Fixpoint ipperm (p : nat -> nat) (k x : nat) : nat :=
  match k with 0 => x | S k' => swapc k' (p k') (ipperm p k' x) end.

Lemma pperm_ipperm p k x : pperm p k (ipperm p k x) = x.
Proof. revert x. induction k as [|k IH]; intros x; cbn; [reflexivity|]. rewrite swapc_invol. apply IH. Qed.
Lemma ipperm_pperm p k x : ipperm p k (pperm p k x) = x.
Proof. revert x. induction k as [|k IH]; intros x; cbn; [reflexivity|]. rewrite IH. apply swapc_invol. Qed.
Lemma pperm_lt p k n x : k <= n -> (forall i, i < k -> p i < n) -> x < n -> pperm p k x < n.
Proof.
  revert x. induction k as [|k IH]; intros x Hk Hp Hx; cbn; [exact Hx|].
  apply IH; [lia|intros; apply Hp; lia|]. apply swapc_lt; [lia|apply Hp; lia|exact Hx].
Qed.
Lemma ipperm_lt p k n x : k <= n -> (forall i, i < k -> p i < n) -> x < n -> ipperm p k x < n.
Proof.
  induction k as [|k IH]; intros Hk Hp Hx; cbn; [exact Hx|].
  apply swapc_lt; [lia|apply Hp; lia|]. apply IH; [lia|intros; apply Hp; lia|exact Hx].
Qed.
Lemma pperm_ext p p' k x : (forall i, i < k -> p i = p' i) -> pperm p k x = pperm p' k x.
Proof.
  revert x. induction k as [|k IH]; intros x Hp; cbn; [reflexivity|]. rewrite Hp by lia. apply IH. intros; apply Hp; lia.
Qed.
Lemma ipperm_ext p p' k x : (forall i, i < k -> p i = p' i) -> ipperm p k x = ipperm p' k x.
Proof.
  revert x. induction k as [|k IH]; intros x Hp; cbn; [reflexivity|]. rewrite Hp by lia.
  f_equal. apply IH. intros; apply Hp; lia.
Qed.
Lemma pperm_inj p k x y : pperm p k x = pperm p k y -> x = y.
Proof. intros E. rewrite <- (ipperm_pperm p k x), <- (ipperm_pperm p k y), E. reflexivity. Qed.

Lemma pperm_indices p k n : k <= n -> (forall i, i < k -> p i < n) -> indices n (map (pperm p k) (seq 0 k)).
Proof.
  intros Hk Hp. split.
  - apply Injective_map_NoDup; [intros x y; apply pperm_inj|apply seq_NoDup].
  - intros i Hi. apply in_map_iff in Hi as [x [<- Hx]]. apply in_seq in Hx. apply pperm_lt; auto; lia.
Qed.

Section Elim.
Context {K : fops} (L : field_laws K).
Notation RL := (fl_ring K L).
Add Ring KringA : (rl_ring K (fl_ring K L)).
Implicit Types (f g G : nat -> nat -> K).

(** The factors stored in the matrix after [k] steps. *)
Definition acaC f (i nu : nat) : K := if i <? nu then f0 else if i =? nu then f1 else f i nu.
Definition acaD f (nu j : nat) : K := if j <? nu then f0 else f nu j.
Definition ainv (r c k : nat) (G f : nat -> nat -> K) : Prop :=
  forall i j, i < r -> j < c ->
    G i j = (sum k (fun nu => acaC f i nu * acaD f nu j) + (if (k <=? i) && (k <=? j) then f i j else f0))%F.

Lemma ainv_0 r c f : ainv r c 0 f f.
Proof. intros i j _ _. cbn [sum]. bsplit. ring. Qed.

Lemma ainv_swap r c k p q G f : ainv r c k G f -> k <= p < r -> k <= q < c ->
  ainv r c k (fun i j => G (swapc k p i) (swapc k q j)) (fun i j => f (swapc k p i) (swapc k q j)).
Proof.
  intros HI Hp Hq i j Hi Hj. rewrite HI by (apply swapc_lt; lia). f_equal.
  - apply sum_ext. intros nu Hnu. unfold acaC, acaD. rewrite !(swapc_low k p nu), !(swapc_low k q nu) by lia.
    f_equal; unfold swapc; bsplit; reflexivity.
  - unfold swapc; bsplit; reflexivity.
Qed.

Definition elimf f (k : nat) (alpha : K) (i j : nat) : K :=
  if (k <? i) && (k <=? j) then if j =? k then (f i k * alpha)%F else (f i j - f i k * alpha * f k j)%F else f i j.

Lemma ainv_elim r c k G f : ainv r c k G f -> k < r -> k < c -> f k k <> f0 ->
  ainv r c (S k) G (elimf f k (f1 / f k k)%F).
Proof.
  intros HI Hr Hc Hf i j Hi Hj. rewrite HI by lia. cbn [sum].
  rewrite (sum_ext k (fun nu => acaC (elimf f k (f1 / f k k)%F) i nu * acaD (elimf f k (f1 / f k k)%F) nu j)%F
                     (fun nu => acaC f i nu * acaD f nu j)%F).
  2:{ intros nu Hnu. unfold acaC, acaD, elimf. bsplit; reflexivity. }
  assert (Ha : (f k k * (f1 / f k k) = f1)%F).
  { transitivity (f k k * (f1 * (f1 / f k k)))%F; [|apply (inv_mul L); exact Hf]. generalize (f1 / f k k)%F. intros x. ring. }
  set (S0 := sum k _). set (al := (f1 / f k k)%F) in *. clearbody S0 al.
  unfold acaC, acaD, elimf. destruct (Nat.eq_dec j k) as [->|Hj2]; [|bsplit; subst; try lia; ring].
  bsplit; subst; try lia; try ring.
  transitivity (S0 + f i k * (f k k * al))%F; [rewrite Ha; ring|ring].
Qed.
End Elim.
