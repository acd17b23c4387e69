(** * Programs over an explicit memory

    The numerical kernels of H2Lib work on arrays of [field] cells that are
    shared between vectors and matrices (sub-vectors, sub-matrices, columns;
    /repo/Library/avector.h:30-60, /repo/Library/amatrix.h:35-70).  The model
    therefore uses an explicit memory of cells and programs that are trees of
    load / store / allocate / free events.  Undefined behaviour and failed
    assertions are distinct error outcomes. *)
From Coq Require Import Arith Lia List Bool.
From Verif Require Import Fld.
Import ListNotations.

#[global] Arguments Nat.ltb : simpl never.
#[global] Arguments Nat.leb : simpl never.
#[global] Arguments Nat.eqb : simpl never.

Inductive err :=
| EAssert      (* a C assert() fails *)
| EBounds      (* access to a cell that is not allocated *)
| EUninit      (* reading a cell that was never written *)
| ENull        (* access through a null pointer *)
| EDiv0        (* integer division by zero *)
| EFuel.       (* the recursion bound of the model is exhausted *)

Inductive res (A : Type) := Ok (a : A) | Err (e : err).
Arguments Ok {_}. Arguments Err {_}.

Definition rbind {A B} (r : res A) (f : A -> res B) : res B :=
  match r with Ok a => f a | Err e => Err e end.

Definition addr := (nat * nat)%type.      (* block, offset *)

Definition addr_eqb (a b : addr) : bool := (fst a =? fst b) && (snd a =? snd b).

Lemma addr_eqb_spec a b : reflect (a = b) (addr_eqb a b).
Proof.
  destruct a as [a1 a2], b as [b1 b2]; unfold addr_eqb; cbn.
  destruct (Nat.eqb_spec a1 b1), (Nat.eqb_spec a2 b2); cbn; constructor; congruence.
Qed.

Inductive cell (K : Type) := Free | Undef | Val (v : K).
Arguments Free {_}. Arguments Undef {_}. Arguments Val {_}.

(** A memory: raw contents of every cell, and the number of the next block that
    will be handed out by an allocation.  Blocks from [next] on are free. *)
Record mem (K : Type) := Mem { raw : addr -> cell K; next : nat }.
Arguments Mem {_}. Arguments raw {_}. Arguments next {_}.

Definition get {K} (m : mem K) (a : addr) : cell K :=
  if fst a <? next m then raw m a else Free.

Definition upd {K} (m : mem K) (a : addr) (v : K) : mem K :=
  Mem (fun b => if addr_eqb b a then Val v else raw m b) (next m).

(** allocmem/allocfield (/repo/Library/basic.c:280-390): a fresh block of [n]
    uninitialised cells.  Simplification: allocation does not fail. *)
Definition alloc {K} (m : mem K) (n : nat) : mem K :=
  Mem (fun b => if fst b =? next m then (if snd b <? n then Undef else Free) else raw m b)
      (S (next m)).

(** freemem (/repo/Library/basic.c:392-398). *)
Definition dealloc {K} (m : mem K) (blk : nat) : mem K :=
  Mem (fun b => if fst b =? blk then Free else raw m b) (next m).

Lemma get_upd {K} (m : mem K) a v b : get m a <> Free ->
  get (upd m a v) b = if addr_eqb b a then Val v else get m b.
Proof.
  unfold get, upd; cbn. intros H.
  destruct (addr_eqb_spec b a) as [->|Hne].
  - destruct (fst a <? next m); congruence.
  - reflexivity.
Qed.

Lemma get_upd_other {K} (m : mem K) a v b : b <> a -> get (upd m a v) b = get m b.
Proof.
  unfold get, upd; cbn. intros H.
  destruct (addr_eqb_spec b a) as [->|Hne]; congruence.
Qed.

Lemma get_alloc_new {K} (m : mem K) n i :
  get (alloc m n) (next m, i) = if i <? n then Undef else Free.
Proof.
  unfold get, alloc; cbn. rewrite Nat.eqb_refl.
  replace (next m <? S (next m)) with true by (symmetry; apply Nat.ltb_lt; lia). reflexivity.
Qed.

Lemma get_alloc_old {K} (m : mem K) n a : fst a <> next m -> get (alloc m n) a = get m a.
Proof.
  unfold get, alloc; cbn. intros H.
  destruct (Nat.eqb_spec (fst a) (next m)); [contradiction|].
  destruct (Nat.ltb_spec (fst a) (S (next m))), (Nat.ltb_spec (fst a) (next m));
    try reflexivity; lia.
Qed.

Lemma get_fresh {K} (m : mem K) a : next m <= fst a -> get m a = Free.
Proof. unfold get. destruct (Nat.ltb_spec (fst a) (next m)); [lia|reflexivity]. Qed.

Lemma get_dealloc {K} (m : mem K) b a :
  get (dealloc m b) a = if fst a =? b then Free else get m a.
Proof.
  unfold get, dealloc; cbn. destruct (fst a =? b), (fst a <? next m); reflexivity.
Qed.

Inductive prog (K A : Type) :=
| Ret (a : A)
| Fail (e : err)
| Ld (p : addr) (k : K -> prog K A)
| St (p : addr) (v : K) (k : prog K A)
| New (n : nat) (k : nat -> prog K A)
| Del (b : nat) (k : prog K A).
Arguments Ret {_ _}. Arguments Fail {_ _}. Arguments Ld {_ _}. Arguments St {_ _}.
Arguments New {_ _}. Arguments Del {_ _}.

Fixpoint bind {K A B} (p : prog K A) (f : A -> prog K B) : prog K B :=
  match p with
  | Ret a => f a
  | Fail e => Fail e
  | Ld a k => Ld a (fun v => bind (k v) f)
  | St a v k => St a v (bind k f)
  | New n k => New n (fun b => bind (k b) f)
  | Del b k => Del b (bind k f)
  end.

Declare Scope prog_scope.
Delimit Scope prog_scope with P.
Notation "x <- p ;; q" := (bind p (fun x => q))
  (at level 61, p at next level, right associativity) : prog_scope.
Notation "p ;;; q" := (bind p (fun _ => q))
  (at level 61, right associativity) : prog_scope.
Open Scope prog_scope.

Definition passert {K} (b : bool) : prog K unit := if b then Ret tt else Fail EAssert.
Definition pload {K} (a : addr) : prog K K := Ld a (fun v => Ret v).
Definition pstore {K} (a : addr) (v : K) : prog K unit := St a v (Ret tt).
Definition palloc {K} (n : nat) : prog K nat := New n (fun b => Ret b).
Definition pfree {K} (b : nat) : prog K unit := Del b (Ret tt).
Definition lift {K A} (r : res A) : prog K A :=
  match r with Ok a => Ret a | Err e => Fail e end.

(** C loops [for (i = lo; i < lo + n; i++)] with a loop-carried value. *)
Fixpoint forS {K S} (lo n : nat) (body : nat -> S -> prog K S) (s : S) : prog K S :=
  match n with
  | O => Ret s
  | Datatypes.S n' => s' <- body lo s ;; forS (Datatypes.S lo) n' body s'
  end.

Definition for_ {K} (lo n : nat) (body : nat -> prog K unit) : prog K unit :=
  forS lo n (fun i _ => body i) tt.

(** C loops [for (i = n; i-- > 0;)]. *)
Fixpoint fordown {K} (n : nat) (body : nat -> prog K unit) : prog K unit :=
  match n with
  | O => Ret tt
  | Datatypes.S n' => body n' ;;; fordown n' body
  end.

(** ** Execution *)
Fixpoint run {K A} (p : prog K A) (m : mem K) : res (A * mem K) :=
  match p with
  | Ret a => Ok (a, m)
  | Fail e => Err e
  | Ld a k => match get m a with
              | Val v => run (k v) m
              | Undef => Err EUninit
              | Free => Err EBounds
              end
  | St a v k => match get m a with
                | Free => Err EBounds
                | _ => run k (upd m a v)
                end
  | New n k => run (k (next m)) (alloc m n)
  | Del b k => if b <? next m then run k (dealloc m b) else Err EBounds
  end.

(** ** Program logic

    [wp R W p m Q]: started in memory [m], the program [p] terminates without
    error, reads only cells in [R] or [W] (or cells it allocated itself), writes
    only cells in [W] (or cells it allocated), and ends with a result and a
    memory satisfying [Q]. *)
Fixpoint wp {K A} (R W : addr -> Prop) (p : prog K A) (m : mem K)
  (Q : A -> mem K -> Prop) : Prop :=
  match p with
  | Ret a => Q a m
  | Fail _ => False
  | Ld a k => (R a \/ W a) /\ exists v, get m a = Val v /\ wp R W (k v) m Q
  | St a v k => W a /\ get m a <> Free /\ wp R W k (upd m a v) Q
  | New n k => wp R (fun a => W a \/ fst a = next m) (k (next m)) (alloc m n) Q
  | Del b k => b < next m /\ (forall o, W (b, o)) /\ wp R W k (dealloc m b) Q
  end.

Lemma wp_mono {K A} (p : prog K A) : forall (R R' W W' : addr -> Prop) (m : mem K) (Q Q' : A -> mem K -> Prop),
  (forall a, R a -> R' a \/ W' a) -> (forall a, W a -> W' a) ->
  (forall a m', Q a m' -> Q' a m') ->
  wp R W p m Q -> wp R' W' p m Q'.
Proof.
  induction p as [a|e|a k IH|a v k IH|n k IH|b k IH]; cbn; intros R R' W W' m Q Q' HR HW HQ H.
  - auto.
  - exact H.
  - destruct H as [Ha [v [Hv Hk]]]. split.
    + destruct Ha; [apply HR in H|apply HW in H]; tauto.
    + exists v; split; [exact Hv|]. eapply IH; eauto.
  - destruct H as [Ha [Hf Hk]]. split; [auto|]. split; [exact Hf|]. eapply IH; eauto.
  - eapply IH; [| |exact HQ|exact H]; cbn; intros a Ha.
    + apply HR in Ha; tauto.
    + destruct Ha; auto.
  - destruct H as [Hb [Ho Hk]]. split; [exact Hb|]. split; [intros o; apply HW; apply Ho|].
    eapply IH; eauto.
Qed.

Lemma wp_conseq {K A} (p : prog K A) R W m (Q Q' : A -> mem K -> Prop) :
  wp R W p m Q -> (forall a m', Q a m' -> Q' a m') -> wp R W p m Q'.
Proof. intros H HQ. eapply wp_mono; [| | |exact H]; auto. Qed.

Lemma wp_bind {K A B} (p : prog K A) (f : A -> prog K B) : forall (R W : addr -> Prop) (m : mem K) Q,
  wp R W p m (fun a m' => wp R W (f a) m' Q) -> wp R W (bind p f) m Q.
Proof.
  induction p as [a|e|a k IH|a v k IH|n k IH|b k IH]; cbn; intros R W m Q H.
  - exact H.
  - exact H.
  - destruct H as [Ha [v [Hv Hk]]]. split; [exact Ha|]. exists v; split; [exact Hv|]. auto.
  - destruct H as [Ha [Hf Hk]]. auto.
  - apply IH. eapply wp_conseq; [exact H|]. cbn; intros a m' H'.
    eapply wp_mono; [| | |exact H']; cbn; auto.
  - destruct H as [Hb [Ho Hk]]. auto.
Qed.

(** Soundness of [wp] with respect to execution. *)
Lemma wp_run {K A} (p : prog K A) : forall (R W : addr -> Prop) (m : mem K) Q,
  wp R W p m Q -> exists a m', run p m = Ok (a, m') /\ Q a m'.
Proof.
  induction p as [a|e|a k IH|a v k IH|n k IH|b k IH]; cbn; intros R W m Q H.
  - eauto.
  - contradiction.
  - destruct H as [_ [v [Hv Hk]]]. rewrite Hv. eauto.
  - destruct H as [_ [Hf Hk]]. destruct (get m a) eqn:E; [congruence| |]; eauto.
  - eauto.
  - destruct H as [Hb [_ Hk]]. apply Nat.ltb_lt in Hb. rewrite Hb. eauto.
Qed.

(** Frame property: cells outside the write set keep their contents, and
    blocks are only added. *)
Lemma wp_frame {K A} (p : prog K A) : forall (R W : addr -> Prop) (m : mem K) Q,
  wp R W p m Q ->
  wp R W p m (fun a m' => Q a m' /\ next m <= next m' /\
    forall b, ~ W b -> fst b < next m -> get m' b = get m b).
Proof.
  induction p as [a|e|a k IH|a v k IH|n k IH|b k IH]; cbn; intros R W m Q H.
  - auto.
  - exact H.
  - destruct H as [Ha [v [Hv Hk]]]. split; [exact Ha|]. exists v; auto.
  - destruct H as [Ha [Hf Hk]]. split; [exact Ha|]. split; [exact Hf|].
    apply IH in Hk. eapply wp_conseq; [exact Hk|]. cbn; intros x m' [HQ [Hn Hc]].
    split; [exact HQ|]. split; [exact Hn|]. intros b Hb Hlt. rewrite Hc by auto.
    apply get_upd_other. intros ->. contradiction.
  - apply IH in H. eapply wp_conseq; [exact H|]. cbn; intros x m' [HQ [Hn Hc]].
    split; [exact HQ|]. split; [lia|]. intros b Hb Hlt.
    rewrite Hc by (first [intros [?|?]; [contradiction|lia] | cbn; lia]).
    apply get_alloc_old. lia.
  - destruct H as [Hb [Ho Hk]]. split; [exact Hb|]. split; [exact Ho|].
    apply IH in Hk. eapply wp_conseq; [exact Hk|]. cbn; intros x m' [HQ [Hn Hc]].
    split; [exact HQ|]. split; [exact Hn|]. intros c Hc' Hlt. rewrite Hc by auto.
    rewrite get_dealloc. destruct (Nat.eqb_spec (fst c) b) as [E|]; [|reflexivity].
    exfalso. apply Hc'. destruct c as [c1 c2]; cbn in E; subst. apply Ho.
Qed.

(** ** Loop rules *)
Lemma wp_forS {K S} (Inv : nat -> S -> mem K -> Prop) R W lo n
  (body : nat -> S -> prog K S) s m (Q : S -> mem K -> Prop) :
  Inv lo s m ->
  (forall i s m, lo <= i < lo + n -> Inv i s m ->
     wp R W (body i s) m (fun s' m' => Inv (Datatypes.S i) s' m')) ->
  (forall s m, Inv (lo + n) s m -> Q s m) ->
  wp R W (forS lo n body s) m Q.
Proof.
  revert lo s m. induction n as [|n IH]; intros lo s m H0 Hb HQ; cbn.
  - apply HQ. rewrite Nat.add_0_r. exact H0.
  - apply wp_bind. eapply wp_conseq; [apply Hb; [lia|exact H0]|].
    cbn; intros s' m' H'. apply IH; [exact H'| |].
    + intros i s1 m1 Hi. apply Hb. lia.
    + intros s1 m1 H1. apply HQ. rewrite Nat.add_succ_r. exact H1.
Qed.

Lemma wp_for {K} (Inv : nat -> mem K -> Prop) R W lo n
  (body : nat -> prog K unit) m (Q : unit -> mem K -> Prop) :
  Inv lo m ->
  (forall i m, lo <= i < lo + n -> Inv i m ->
     wp R W (body i) m (fun _ m' => Inv (S i) m')) ->
  (forall m, Inv (lo + n) m -> Q tt m) ->
  wp R W (for_ lo n body) m Q.
Proof.
  intros H0 Hb HQ. unfold for_. apply (wp_forS (fun i _ m => Inv i m)); auto.
  intros []; auto.
Qed.

Lemma wp_fordown {K} (Inv : nat -> mem K -> Prop) R W n
  (body : nat -> prog K unit) m (Q : unit -> mem K -> Prop) :
  Inv n m ->
  (forall i m, i < n -> Inv (S i) m -> wp R W (body i) m (fun _ m' => Inv i m')) ->
  (forall m, Inv 0 m -> Q tt m) ->
  wp R W (fordown n body) m Q.
Proof.
  revert m. induction n as [|n IH]; intros m H0 Hb HQ; cbn.
  - auto.
  - apply wp_bind. eapply wp_conseq; [apply Hb; [lia|exact H0]|].
    cbn; intros _ m' H'. apply IH; [exact H'| |exact HQ].
    intros i m1 Hi. apply Hb. lia.
Qed.

Lemma wp_assert {K} R W (b : bool) (m : mem K) (Q : unit -> mem K -> Prop) :
  b = true -> Q tt m -> wp R W (passert b) m Q.
Proof. intros ->. cbn. auto. Qed.
