(** * Uniqueness of solutions of triangular systems *)
From Coq Require Import Arith Lia List Bool Ring.
From Verif Require Import Fld Prog View Spec Loop FactorSpec FactorP FactorP2.

Section Unique.
Context {K : fops} (L : field_laws K).
Add Ring KringU : (rl_ring K (fl_ring K L)).

Lemma mul_cancel (a x y : K) : a <> f0 -> (a * x = a * y)%F -> x = y.
Proof.
  intros H E. transitivity (a * finv a * x)%F; [rewrite (finv_r L) by exact H; ring|].
  transitivity (finv a * (a * x))%F; [ring|]. rewrite E.
  transitivity (a * finv a * y)%F; [ring|]. rewrite (finv_r L) by exact H. ring.
Qed.

Lemma sum_others n p (h h' : nat -> K) : p < n ->
  (forall i, i < n -> i <> p -> h i = h' i) -> sum n h = sum n h' -> h p = h' p.
Proof.
  intros Hp He Hs.
  assert (E1 : forall c : K, sum n (fun i => if i =? p then c else f0) = c).
  { intros c. rewrite (sum_single (fl_ring K L) n p); [rewrite Nat.eqb_refl; reflexivity|exact Hp|].
    intros i Hi Ne. destruct (Nat.eqb_spec i p); [contradiction|reflexivity]. }
  assert (E : (sum n h = sum n (fun i => if i =? p then f0 else h' i) + h p)%F).
  { rewrite <- (E1 (h p)), <- (sum_add (fl_ring K L)). apply sum_ext. intros i Hi.
    destruct (Nat.eqb_spec i p) as [->|Ne]; [ring|]. rewrite He by assumption. ring. }
  assert (E' : (sum n h' = sum n (fun i => if i =? p then f0 else h' i) + h' p)%F).
  { rewrite <- (E1 (h' p)), <- (sum_add (fl_ring K L)). apply sum_ext. intros i Hi.
    destruct (Nat.eqb_spec i p) as [->|Ne]; ring. }
  rewrite E, E' in Hs.
  set (c := sum n (fun i => if i =? p then f0 else h' i)) in *.
  transitivity (c + h p - c)%F; [ring|]. rewrite Hs. ring.
Qed.

Lemma tri_unique (up : bool) n (T : nat -> nat -> K) (x y : nat -> K) :
  (forall i j, i < n -> j < n -> (if up then j < i else i < j) -> T i j = f0) ->
  (forall i, i < n -> T i i <> f0) ->
  (forall i, i < n -> mvec n T x i = mvec n T y i) -> forall i, i < n -> x i = y i.
Proof.
  intros HT HD HE.
  assert (H : forall k i, i < n -> (if up then n - i else i) < k -> x i = y i).
  { induction k as [|k IH]; intros i Hi Hk; [destruct up; lia|].
    apply (mul_cancel (T i i)); [auto|].
    apply (sum_others n i (fun j => T i j * x j)%F (fun j => T i j * y j)%F); [exact Hi| |apply HE, Hi].
    intros j Hj Ne. destruct (Nat.lt_ge_cases i j) as [Hij|Hij].
    - destruct up.
      + rewrite (IH j); [reflexivity|exact Hj|lia].
      + rewrite HT by assumption. ring.
    - destruct up.
      + rewrite HT by (try assumption; lia). ring.
      + rewrite (IH j); [reflexivity|exact Hj|lia]. }
  intros i Hi. apply (H (S (if up then n - i else i))); [exact Hi|lia].
Qed.
End Unique.
