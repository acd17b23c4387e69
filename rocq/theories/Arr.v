(** * Checked arrays and loops in the [res] monad

    Index arrays and arrays of structures (as opposed to the [field] arrays of
    vectors and matrices) are modelled as values: an array is a list of
    optional cells, [None] standing for a cell that was never written.  Every
    access is checked; an access outside the array is [EBounds], reading an
    unwritten cell is [EUninit]. *)
From Coq Require Import Arith Lia List Bool.
From Verif Require Import Fld Prog.
Import ListNotations.

Declare Scope res_scope.
Delimit Scope res_scope with R.
Notation "'let*' x ':=' r 'in' q" := (rbind r (fun x => q))
  (at level 200, x pattern, r at level 100, q at level 200) : res_scope.
Notation "'do*' r 'in' q" := (rbind r (fun _ => q))
  (at level 200, r at level 100, q at level 200) : res_scope.
Open Scope res_scope.

Definition rassert (b : bool) : res unit := if b then Ok tt else Err EAssert.

(** [for (i = lo; i < lo + n; i++) s = body(i, s)] *)
Fixpoint rfor {S} (lo n : nat) (body : nat -> S -> res S) (s : S) : res S :=
  match n with
  | O => Ok s
  | Datatypes.S n' => let* s' := body lo s in rfor (Datatypes.S lo) n' body s'
  end.

(** Loops over the sons of a node, over list entries, ... *)
Section Lists.
  Context {A B S : Type}.

  Context (body : A -> S -> res S).
  Fixpoint rfold (l : list A) (s : S) : res S :=
    match l with
    | [] => Ok s
    | x :: l' => let* s' := body x s in rfold l' s'
    end.

  Context (f : A -> res B).
  Fixpoint rmap (l : list A) : res (list B) :=
    match l with
    | [] => Ok []
    | x :: l' => let* y := f x in let* ys := rmap l' in Ok (y :: ys)
    end.
End Lists.

(** [rok r Q]: the computation succeeds with a result satisfying [Q]. *)
Definition rok {A} (r : res A) (Q : A -> Prop) : Prop :=
  match r with Ok a => Q a | Err _ => False end.

Lemma rok_bind {A B} (r : res A) (f : A -> res B) (Q : B -> Prop) :
  rok r (fun a => rok (f a) Q) -> rok (rbind r f) Q.
Proof. destruct r; cbn; auto. Qed.

Lemma rok_conseq {A} (r : res A) (Q Q' : A -> Prop) :
  rok r Q -> (forall a, Q a -> Q' a) -> rok r Q'.
Proof. destruct r; cbn; auto. Qed.

Lemma rok_inv {A} (r : res A) (Q : A -> Prop) : rok r Q -> exists a, r = Ok a /\ Q a.
Proof. destruct r; cbn; [eauto|contradiction]. Qed.

Lemma rok_intro {A} (r : res A) a (Q : A -> Prop) : r = Ok a -> Q a -> rok r Q.
Proof. intros -> H. exact H. Qed.

Lemma rok_assert b (Q : unit -> Prop) : b = true -> Q tt -> rok (rassert b) Q.
Proof. intros ->. auto. Qed.

Lemma rok_for {S} (Inv : nat -> S -> Prop) lo n (body : nat -> S -> res S) s (Q : S -> Prop) :
  Inv lo s ->
  (forall i s, lo <= i < lo + n -> Inv i s -> rok (body i s) (Inv (Datatypes.S i))) ->
  (forall s, Inv (lo + n) s -> Q s) ->
  rok (rfor lo n body s) Q.
Proof.
  revert lo s. induction n as [|n IH]; intros lo s H0 Hb HQ; cbn.
  - apply HQ. rewrite Nat.add_0_r. exact H0.
  - apply rok_bind. eapply rok_conseq; [apply Hb; [lia|exact H0]|].
    intros s' Hs'. apply IH; [exact Hs'| |].
    + intros i s1 Hi. apply Hb. lia.
    + intros s1. rewrite Nat.add_succ_l, <- Nat.add_succ_r. apply HQ.
Qed.

Lemma rfor_app {S} lo n k (body : nat -> S -> res S) s :
  rfor lo (n + k) body s = rbind (rfor lo n body s) (rfor (lo + n) k body).
Proof.
  revert lo s. induction n as [|n IH]; intros lo s; cbn.
  - rewrite Nat.add_0_r. reflexivity.
  - destruct (body lo s) as [s'|e]; cbn; [|reflexivity]. rewrite IH.
    replace (Datatypes.S lo + n) with (lo + Datatypes.S n) by lia. reflexivity.
Qed.

Lemma rfor_ext {S} lo n (b1 b2 : nat -> S -> res S) s :
  (forall i s, lo <= i < lo + n -> b1 i s = b2 i s) -> rfor lo n b1 s = rfor lo n b2 s.
Proof.
  revert lo s. induction n as [|n IH]; intros lo s H; cbn; [reflexivity|].
  rewrite H by lia. destruct (b2 lo s); cbn; [|reflexivity]. apply IH. intros; apply H; lia.
Qed.

(** ** Arrays *)
Definition arr (A : Type) := list (option A).

Definition anew {A} (n : nat) : arr A := repeat None n.

Definition aget {A} (a : arr A) (i : nat) : res A :=
  match nth_error a i with
  | Some (Some x) => Ok x
  | Some None => Err EUninit
  | None => Err EBounds
  end.

Fixpoint lupd {A} (l : list A) (i : nat) (x : A) : list A :=
  match l, i with
  | [], _ => []
  | _ :: l', O => x :: l'
  | y :: l', S i' => y :: lupd l' i' x
  end.

Definition aset {A} (a : arr A) (i : nat) (x : A) : res (arr A) :=
  if i <? length a then Ok (lupd a i (Some x)) else Err EBounds.

Lemma lupd_length {A} (l : list A) i x : length (lupd l i x) = length l.
Proof. revert i. induction l as [|y l IH]; intros [|i]; cbn; auto. Qed.

Lemma lupd_nth {A} (l : list A) i x k :
  nth_error (lupd l i x) k = if (k =? i) && (k <? length l) then Some x else nth_error l k.
Proof.
  revert i k. induction l as [|y l IH]; intros i k; cbn [lupd].
  - destruct k; cbn [nth_error length]; destruct (Nat.eqb_spec 0 i), (Nat.ltb_spec 0 0); cbn;
      try lia; try reflexivity;
      destruct (_ =? _), (Nat.ltb_spec (S k) 0); cbn; try lia; reflexivity.
  - destruct i as [|i], k as [|k]; cbn [nth_error length]; try reflexivity.
    rewrite IH. change (S k =? S i) with (k =? i).
    destruct (Nat.eqb_spec k i), (Nat.ltb_spec k (length l)), (Nat.ltb_spec (S k) (S (length l)));
      cbn; try lia; reflexivity.
Qed.

(** [aval a n f]: the array has length [n] and holds [f 0, ..., f (n-1)]. *)
Definition aval {A} (a : arr A) (n : nat) (f : nat -> A) : Prop :=
  length a = n /\ forall i, i < n -> nth_error a i = Some (Some (f i)).
(** Only a part of the array is known to be initialised. *)
Definition aprt {A} (a : arr A) (n : nat) (P : nat -> Prop) (f : nat -> A) : Prop :=
  length a = n /\ forall i, i < n -> P i -> nth_error a i = Some (Some (f i)).

Lemma aval_get {A} (a : arr A) n f i : aval a n f -> i < n -> aget a i = Ok (f i).
Proof. intros [_ H] Hi. unfold aget. rewrite H by exact Hi. reflexivity. Qed.

Lemma aprt_get {A} (a : arr A) n P f i : aprt a n P f -> i < n -> P i -> aget a i = Ok (f i).
Proof. intros [_ H] Hi Hp. unfold aget. rewrite H by assumption. reflexivity. Qed.

Lemma aval_ext {A} (a : arr A) n f g : aval a n f -> (forall i, i < n -> f i = g i) -> aval a n g.
Proof. intros [H1 H2] E. split; [exact H1|]. intros i Hi. rewrite <- E by exact Hi. auto. Qed.

Lemma aprt_ext {A} (a : arr A) n (P P' : nat -> Prop) f g : aprt a n P f ->
  (forall i, i < n -> P' i -> P i) -> (forall i, i < n -> P' i -> f i = g i) -> aprt a n P' g.
Proof. intros [H1 H2] HP E. split; [exact H1|]. intros i Hi Hp. rewrite <- E by assumption. auto. Qed.

Lemma aval_aprt {A} (a : arr A) n P f : aval a n f -> aprt a n P f.
Proof. intros [H1 H2]. split; auto. Qed.

Lemma aprt_aval {A} (a : arr A) n (P : nat -> Prop) f :
  (forall i, i < n -> P i) -> aprt a n P f -> aval a n f.
Proof. intros HP [H1 H2]. split; auto. Qed.

Lemma anew_prt {A} n (P : nat -> Prop) (f : nat -> A) : (forall i, i < n -> ~ P i) -> aprt (anew n) n P f.
Proof. intros H. split; [apply repeat_length|]. intros i Hi Hp. destruct (H i Hi Hp). Qed.

Definition afupd {A} (f : nat -> A) (i : nat) (x : A) : nat -> A :=
  fun k => if k =? i then x else f k.

Lemma rok_aset {A} (a : arr A) n f i x (Q : arr A -> Prop) :
  aval a n f -> i < n -> (forall a', aval a' n (afupd f i x) -> Q a') -> rok (aset a i x) Q.
Proof.
  intros [H1 H2] Hi HQ. unfold aset. rewrite H1. destruct (Nat.ltb_spec i n); [|lia].
  cbn. apply HQ. split; [rewrite lupd_length; exact H1|].
  intros k Hk. rewrite lupd_nth, H1. unfold afupd.
  destruct (Nat.eqb_spec k i), (Nat.ltb_spec k n); cbn; try lia; auto.
Qed.

Lemma rok_aset_prt {A} (a : arr A) n (P : nat -> Prop) f i x (Q : arr A -> Prop) :
  aprt a n P f -> i < n ->
  (forall a', aprt a' n (fun k => k = i \/ P k) (afupd f i x) -> Q a') -> rok (aset a i x) Q.
Proof.
  intros [H1 H2] Hi HQ. unfold aset. rewrite H1. destruct (Nat.ltb_spec i n); [|lia].
  cbn. apply HQ. split; [rewrite lupd_length; exact H1|].
  intros k Hk Hp. rewrite lupd_nth, H1. unfold afupd.
  destruct (Nat.eqb_spec k i), (Nat.ltb_spec k n); cbn; try lia; auto.
  destruct Hp; [lia|auto].
Qed.

Lemma rok_aget {A} (a : arr A) n f i (Q : A -> Prop) :
  aval a n f -> i < n -> Q (f i) -> rok (aget a i) Q.
Proof. intros H Hi HQ. rewrite (aval_get a n f i H Hi). exact HQ. Qed.

(** Concrete arrays. *)
Definition aof {A} (l : list A) : arr A := map Some l.
Lemma aof_val {A} (l : list A) d : aval (aof l) (length l) (fun i => nth i l d).
Proof.
  split; [apply map_length|]. intros i Hi. unfold aof. rewrite nth_error_map.
  rewrite (nth_error_nth' l d Hi). reflexivity.
Qed.

(** Array access inside programs. *)
Lemma wp_lift {K A} (R W : addr -> Prop) (r : res A) (m : mem K) (Q : A -> mem K -> Prop) :
  rok r (fun a => Q a m) -> wp R W (lift r) m Q.
Proof. destruct r; cbn; auto. Qed.
