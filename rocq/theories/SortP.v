(** * Proofs about heapsort *)
From Coq Require Import Arith Lia List Bool ZArith.
From Verif Require Import Fld Prog Arr Basic.
Import ListNotations.

Lemma w32_small x : (N.of_nat x < 2 ^ 32)%N -> w32 x = x.
Proof. intros H. unfold w32. rewrite N.mod_small by exact H. apply Nnat.Nat2N.id. Qed.

Section Sort.
Context {S X : Type} (leq : nat -> nat -> S -> res bool) (swap : nat -> nat -> S -> res S).
Context (inv : S -> Prop) (key : S -> nat -> X) (le : X -> X -> bool) (N0 : nat).
Context (le_total : forall x y, le x y = true \/ le y x = true)
  (le_trans : forall x y z, le x y = true -> le y z = true -> le x z = true)
  (Hleq : forall s i j, inv s -> i < N0 -> j < N0 -> i <> j -> leq i j s = Ok (le (key s i) (key s j)))
  (Hswap : forall s i j, inv s -> i < N0 -> j < N0 -> i <> j ->
     rok (swap i j s) (fun s' => inv s' /\ forall k, key s' k = key s (if k =? i then j else if k =? j then i else k)))
  (HN : (N.of_nat N0 <= 2 ^ 31)%N).

(** The keys with indices below [n] are permuted, the others are not changed. *)
Definition sperm (n : nat) (s s' : S) : Prop :=
  exists p, (forall i, i < n -> p i < n) /\ (forall i j, i < n -> j < n -> p i = p j -> i = j) /\
    (forall i, i < n -> key s' i = key s (p i)) /\ (forall i, n <= i -> key s' i = key s i).

Lemma sperm_refl n s : sperm n s s.
Proof. exists (fun i => i). repeat split; auto. Qed.
Lemma sperm_trans n s1 s2 s3 : sperm n s1 s2 -> sperm n s2 s3 -> sperm n s1 s3.
Proof.
  intros (p & P1 & P2 & P3 & P4) (q & Q1 & Q2 & Q3 & Q4). exists (fun i => p (q i)). repeat split.
  - auto.
  - intros i j Hi Hj E. auto.
  - intros i Hi. rewrite Q3, P3; auto.
  - intros i Hi. rewrite Q4, P4; auto.
Qed.
Lemma sperm_mono n n' s s' : n <= n' -> sperm n s s' -> sperm n' s s'.
Proof.
  intros Hn (p & P1 & P2 & P3 & P4). exists (fun i => if i <? n then p i else i). repeat split.
  - intros i Hi. destruct (Nat.ltb_spec i n); [specialize (P1 i); lia|lia].
  - intros i j Hi Hj. destruct (Nat.ltb_spec i n), (Nat.ltb_spec j n); intros E; auto.
    + specialize (P1 i); lia.
    + specialize (P1 j); lia.
  - intros i Hi. destruct (Nat.ltb_spec i n); [auto|apply P4; lia].
  - intros i Hi. apply P4. lia.
Qed.
Lemma sperm_swap n s s' i j : i < n -> j < n -> (forall k, key s' k = key s (if k =? i then j else if k =? j then i else k)) -> sperm n s s'.
Proof.
  intros Hi Hj E. exists (fun k => if k =? i then j else if k =? j then i else k). repeat split.
  - intros k Hk. destruct (k =? i), (k =? j); auto.
  - intros a b Ha Hb. destruct (Nat.eqb_spec a i), (Nat.eqb_spec a j), (Nat.eqb_spec b i), (Nat.eqb_spec b j); lia.
  - intros k Hk. apply E.
  - intros k Hk. rewrite E. destruct (Nat.eqb_spec k i); [lia|]. destruct (Nat.eqb_spec k j); [lia|reflexivity].
Qed.

Definition child (p c : nat) : Prop := c = 2 * p + 1 \/ c = 2 * p + 2.
Definition heapf (lo n : nat) (s : S) : Prop := forall p c, lo <= p -> c < n -> child p c -> le (key s c) (key s p) = true.
Definition heapx (lo n r : nat) (s : S) : Prop :=
  (forall p c, lo <= p -> p <> r -> c < n -> child p c -> le (key s c) (key s p) = true) /\
  (forall p c, lo <= p -> child p r -> c < n -> child r c -> le (key s c) (key s p) = true).

Lemma heap_loop_ok lo n : n <= N0 -> forall fuel r s, lo <= r -> r < n -> n - r <= fuel -> inv s -> heapx lo n r s ->
  rok (heap_loop leq swap fuel r (w32 (2 * r + 1)) n s) (fun s' => inv s' /\ heapf lo n s' /\ sperm n s s').
Proof.
  intros Hn. induction fuel as [|fuel IH]; intros r s Hlo Hr Hf Hi [H1 H2]; [lia|].
  rewrite w32_small by lia. cbn [heap_loop]. destruct (Nat.ltb_spec (2 * r + 1) n) as [Hc|Hc]; cbn [negb].
  2:{ cbn. split; [exact Hi|]. split; [|apply sperm_refl]. intros p c Hp Hc' Hch. apply H1; auto. intros ->. unfold child in Hch. lia. }
  rewrite w32_small by lia. replace (2 * r + 1 + 1) with (2 * r + 2) by lia.
  set (b := if 2 * r + 2 <? n then leq (2 * r + 1) (2 * r + 2) s else Ok false).
  assert (Hb : exists v, b = Ok v /\ (if v then 2 * r + 2 < n else True) /\
    forall c, child r c -> c < n -> le (key s c) (key s (if v then 2 * r + 2 else 2 * r + 1)) = true).
  { unfold b. destruct (Nat.ltb_spec (2 * r + 2) n) as [H|H].
    - rewrite Hleq by (auto; lia). destruct (le (key s (2 * r + 1)) (key s (2 * r + 2))) eqn:E; eexists; (split; [reflexivity|]); (split; [auto|]); intros c [->| ->] _; auto.
      + destruct (le_total (key s (2 * r + 2)) (key s (2 * r + 2))); auto.
      + destruct (le_total (key s (2 * r + 1)) (key s (2 * r + 1))); auto.
      + destruct (le_total (key s (2 * r + 1)) (key s (2 * r + 2))); [congruence|auto].
    - exists false. split; [reflexivity|]. split; [auto|]. intros c [->| ->] Hc'; [|lia]. destruct (le_total (key s (2 * r + 1)) (key s (2 * r + 1))); auto. }
  destruct Hb as (v & -> & Hv & Hmax). cbn [rbind].
  set (c := if v then 2 * r + 2 else 2 * r + 1) in *.
  assert (Hcc : child r c /\ c < n) by (unfold c, child; destruct v; lia). destruct Hcc as [Hch Hcn].
  assert (Hrc : r < c) by (unfold child in Hch; lia).
  rewrite Hleq by (auto; lia). cbn [rbind]. destruct (le (key s r) (key s c)) eqn:E.
  - apply rok_bind. eapply rok_conseq; [apply Hswap; auto; lia|]. cbv beta. intros s' [Hi' K].
    assert (Kr : key s' r = key s c) by (rewrite K, Nat.eqb_refl; reflexivity).
    assert (Kc : key s' c = key s r) by (rewrite K; destruct (Nat.eqb_spec c r); [lia|]; rewrite Nat.eqb_refl; reflexivity).
    assert (Ko : forall k, k <> r -> k <> c -> key s' k = key s k) by (intros k Hk1 Hk2; rewrite K; destruct (Nat.eqb_spec k r); [lia|]; destruct (Nat.eqb_spec k c); [lia|reflexivity]).
    eapply rok_conseq; [apply IH; [lia|exact Hcn|lia|exact Hi'|]|].
    + split.
      * intros p d Hp Hpc Hd Hpd. destruct (Nat.eq_dec p r) as [->|Hpr].
        -- rewrite Kr. destruct (Nat.eq_dec d c) as [->|Hdc]; [rewrite Kc; exact E|]. rewrite Ko by (auto; unfold child in Hpd; lia). apply Hmax; auto.
        -- rewrite (Ko p) by auto. assert (d <> c) by (unfold child in *; lia). destruct (Nat.eq_dec d r) as [->|Hdr].
           ++ rewrite Kr. apply H2; auto.
           ++ rewrite Ko by auto. apply H1; auto.
      * intros p d Hp Hpc Hd Hcd. assert (p = r) by (unfold child in *; lia). subst p. rewrite Kr. rewrite Ko by (unfold child in *; lia).
        apply H1; auto; lia.
    + cbv beta. intros s2 (A1 & A2 & A3). split; [exact A1|]. split; [exact A2|]. eapply sperm_trans; [|exact A3]. apply (sperm_swap n s s' r c); auto.
  - cbn. split; [exact Hi|]. split; [|apply sperm_refl]. intros p d Hp Hd Hpd. destruct (Nat.eq_dec p r) as [->|Hpr]; [|apply H1; auto].
    apply le_trans with (key s c); [apply Hmax; auto|]. destruct (le_total (key s r) (key s c)); [congruence|auto].
Qed.

Lemma heap_down_ok r n s : n <= N0 -> r < n -> inv s -> heapf (Datatypes.S r) n s ->
  rok (heap_down leq swap r n s) (fun s' => inv s' /\ heapf r n s' /\ sperm n s s').
Proof.
  intros Hn Hr Hi H. apply heap_loop_ok; auto; [lia|]. split.
  - intros p c Hp Hpr Hc Hch. apply H; auto. lia.
  - intros p c Hp Hch. unfold child in Hch. lia.
Qed.

Lemma heap_build_ok n : n <= N0 -> forall r s, r <= n -> inv s -> heapf r n s ->
  rok (heap_build leq swap r n s) (fun s' => inv s' /\ heapf 0 n s' /\ sperm n s s').
Proof.
  intros Hn. induction r as [|r IH]; intros s Hr Hi H; cbn [heap_build].
  - split; [exact Hi|]. split; [exact H|apply sperm_refl].
  - apply rok_bind. eapply rok_conseq; [apply heap_down_ok; auto; lia|]. cbv beta. intros s1 (A1 & A2 & A3).
    eapply rok_conseq; [apply IH; auto; lia|]. cbv beta. intros s2 (B1 & B2 & B3). split; [exact B1|]. split; [exact B2|]. eapply sperm_trans; eassumption.
Qed.

Lemma heap_max n s : heapf 0 n s -> forall i, i < n -> le (key s i) (key s 0) = true.
Proof.
  intros H i. induction i as [i IH] using lt_wf_ind. intros Hi. destruct i as [|i].
  - destruct (le_total (key s 0) (key s 0)); auto.
  - pose proof (Nat.div_mod i 2 ltac:(lia)). pose proof (Nat.mod_upper_bound i 2 ltac:(lia)). set (q := i / 2) in *.
    apply le_trans with (key s q); [|apply IH; lia]. apply H; [lia|exact Hi|]. unfold child. lia.
Qed.

Definition tailsorted (n : nat) (s : S) : Prop :=
  forall i j, i < j -> n <= j < N0 -> le (key s i) (key s j) = true.

Lemma heap_sort_ok n : forall s, n <= N0 -> inv s -> heapf 0 n s -> tailsorted n s ->
  rok (heap_sort leq swap n s) (fun s' => inv s' /\ tailsorted 1 s' /\ sperm n s s').
Proof.
  induction n as [|n IH]; intros s Hn Hi H T; cbn [heap_sort].
  - split; [exact Hi|]. split; [|apply sperm_refl]. intros i j Hij Hj. apply T; lia.
  - destruct n as [|m]; [split; [exact Hi|]; split; [exact T|apply sperm_refl]|]. set (n := Datatypes.S m) in *. assert (0 < n) by (unfold n; lia).
    apply rok_bind. eapply rok_conseq; [apply Hswap; auto; lia|]. cbv beta. intros s1 [Hi1 K].
    assert (K0 : key s1 0 = key s n) by (rewrite K; reflexivity).
    assert (Kn : key s1 n = key s 0) by (rewrite K; destruct (Nat.eqb_spec n 0); [lia|]; rewrite Nat.eqb_refl; reflexivity).
    assert (Ko : forall k, k <> 0 -> k <> n -> key s1 k = key s k) by (intros k Hk1 Hk2; rewrite K; destruct (Nat.eqb_spec k 0); [lia|]; destruct (Nat.eqb_spec k n); [lia|reflexivity]).
    apply rok_bind. eapply rok_conseq; [apply heap_down_ok; [lia|lia|exact Hi1|]|].
    + intros p c Hp Hc Hch. rewrite !Ko by (unfold child in Hch; lia). apply H; [lia|lia|exact Hch].
    + cbv beta. intros s2 (A1 & A2 & A3).
      assert (T2 : tailsorted n s2).
      { destruct A3 as (p & P1 & P2 & P3 & P4). intros i j Hij Hj. rewrite (P4 j) by lia. destruct (Nat.eq_dec j n) as [->|Hjn].
        - rewrite P3 by lia. rewrite Kn. destruct (Nat.eq_dec (p i) 0) as [E|E]; [rewrite E, K0; apply (heap_max (Datatypes.S n)); [exact H|lia]|].
          pose proof (P1 i ltac:(lia)). rewrite Ko by lia. apply (heap_max (Datatypes.S n)); [exact H|lia].
        - rewrite (Ko j) by lia. assert (Hg : forall k, k < j -> le (key s1 k) (key s j) = true).
          { intros k Hk. rewrite K. destruct (Nat.eqb_spec k 0); [apply T; lia|]. destruct (Nat.eqb_spec k n); apply T; lia. }
          destruct (Nat.lt_ge_cases i n) as [Hin|Hin]; [rewrite P3 by exact Hin; apply Hg; pose proof (P1 i Hin); lia|rewrite P4 by exact Hin; apply Hg; exact Hij]. }
      eapply rok_conseq; [apply IH; [lia|exact A1|exact A2|exact T2]|]. cbv beta. intros s3 (B1 & B2 & B3). split; [exact B1|]. split; [exact B2|].
      eapply sperm_trans; [apply (sperm_swap (Datatypes.S n) s s1 0 n); [lia|lia|exact K]|]. eapply sperm_trans; (eapply sperm_mono; [|eassumption]); lia.
Qed.

Lemma heapsort_ok s : inv s ->
  rok (heapsort leq swap N0 s) (fun s' => inv s' /\ (forall i j, i < j < N0 -> le (key s' i) (key s' j) = true) /\ sperm N0 s s').
Proof.
  intros Hi. unfold heapsort. destruct (Nat.ltb_spec N0 2) as [Hn|Hn].
  - split; [exact Hi|]. split; [intros i j Hij; lia|apply sperm_refl].
  - pose proof (Nat.div_mod N0 2 ltac:(lia)). pose proof (Nat.mod_upper_bound N0 2 ltac:(lia)).
    apply rok_bind. eapply rok_conseq; [apply heap_build_ok; [lia| |exact Hi|]|].
    + set (q := N0 / 2) in *. lia.
    + intros p c Hp Hc Hch. unfold child in Hch. set (q := N0 / 2) in *. lia.
    + cbv beta. intros s1 (A1 & A2 & A3). eapply rok_conseq; [apply heap_sort_ok; auto; intros i j Hij Hj; lia|].
      cbv beta. intros s2 (B1 & B2 & B3). split; [exact B1|]. split; [intros i j Hij; apply B2; lia|]. eapply sperm_trans; eassumption.
Qed.
End Sort.
