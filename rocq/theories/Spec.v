(** * Vocabulary used in the statements of the theorems

    A vector is a function [nat -> K], a matrix a function [nat -> nat -> K];
    only the values below the dimensions matter. *)
From Coq Require Import Arith Lia List Bool.
From Verif Require Import Fld Prog View.
Import ListNotations.

(** [ends p m Q]: the program stops without undefined behaviour, failed
    assertion or access outside allocated memory, and its result and final
    memory satisfy [Q]. *)
Definition ends {K A} (p : prog K A) (m : mem K) (Q : A -> mem K -> Prop) : Prop :=
  exists a m', run p m = Ok (a, m') /\ Q a m'.

Lemma wp_ends {K A} (p : prog K A) m (Q : A -> mem K -> Prop) :
  wp (fun _ => True) (fun _ => True) p m Q -> ends p m Q.
Proof. apply wp_run. Qed.

(** [fails p m e]: the program stops with error [e]. *)
Definition fails {K A} (p : prog K A) (m : mem K) (e : err) : Prop := run p m = Err e.

Section Math.
Context {K : fops}.

(** [op(A)]: the matrix itself or its adjoint. *)
Definition tr (t : bool) (f : nat -> nat -> K) : nat -> nat -> K :=
  if t then (fun i j => fconj (f j i)) else f.

(** Identity matrix. *)
Definition idf (i j : nat) : K := if i =? j then f1 else f0.

(** Lower bidiagonal matrix with diagonal [d] and sub-diagonal [l]. *)
Definition bidiag (d l : nat -> K) (i j : nat) : K :=
  if i =? j then d i else if i =? S j then l j else f0.

(** Product of an [.. x n] and an [n x ..] matrix; matrix times vector. *)
Definition mmul (n : nat) (A B : nat -> nat -> K) (i k : nat) : K :=
  sum n (fun j => A i j * B j k)%F.
Definition mvec (n : nat) (A : nat -> nat -> K) (x : nat -> K) (i : nat) : K :=
  sum n (fun j => A i j * x j)%F.
(** Inner product, conjugated in the first argument. *)
Definition dot (n : nat) (x y : nat -> K) : K := sum n (fun i => fconj (x i) * y i)%F.
End Math.

(** ** Concrete memories for the examples *)
Section Concrete.
Context {K : fops}.

Definition mem_of (bl : list (list K)) : mem K :=
  Mem (fun a => match nth_error bl (fst a) with
                | Some l => match nth_error l (snd a) with Some v => Val v | None => Free end
                | None => Free end) (length bl).

Definition vof (bl : list (list K)) (x : vec) (i : nat) : K :=
  nth (voff x + i) (nth (vblk x) bl []) f0.
Definition mof (bl : list (list K)) (A : mat) (i j : nat) : K :=
  nth (moff A + (i + j * mld A)) (nth (mblk A) bl []) f0.

Lemma get_mem_of (bl : list (list K)) b o :
  b < length bl -> o < length (nth b bl []) ->
  get (mem_of bl) (b, o) = Val (nth o (nth b bl []) f0).
Proof.
  intros Hb Ho. unfold get, mem_of; cbn.
  destruct (Nat.ltb_spec b (length bl)); [|lia].
  rewrite (nth_error_nth' bl [] Hb).
  rewrite (nth_error_nth' _ f0 Ho). reflexivity.
Qed.

Lemma vval_of bl x :
  (vblk x <? length bl) && (voff x + vdim x <=? length (nth (vblk x) bl [])) = true ->
  vval (mem_of bl) x (vof bl x).
Proof.
  intros H i Hi. apply andb_true_iff in H as [H1%Nat.ltb_lt H2%Nat.leb_le].
  apply get_mem_of; [exact H1|lia].
Qed.

Lemma mval_of bl A :
  (mblk A <? length bl) && (mrows A <=? mld A) &&
  (moff A + mld A * (mcols A - 1) + mrows A <=? length (nth (mblk A) bl [])) = true ->
  mval (mem_of bl) A (mof bl A).
Proof.
  intros H i j Hi Hj. apply andb_true_iff in H as [H H3%Nat.leb_le].
  apply andb_true_iff in H as [H1%Nat.ltb_lt H2%Nat.leb_le].
  apply get_mem_of; [exact H1|].
  assert (j * mld A <= mld A * (mcols A - 1)) by (rewrite Nat.mul_comm; apply Nat.mul_le_mono_l; lia).
  lia.
Qed.
End Concrete.

Lemma disj_vv_blk x y : vblk x <> vblk y -> disj (inv x) (inv y).
Proof. intros H a [i [_ ->]] [j [_ E]]. unfold va in E. congruence. Qed.
Lemma disj_mv_blk A y : mblk A <> vblk y -> disj (inm A) (inv y).
Proof. intros H a [i [k [_ [_ ->]]]] [j [_ E]]. unfold va, ma in E. congruence. Qed.
Lemma disj_vm_blk y A : vblk y <> mblk A -> disj (inv y) (inm A).
Proof. intros H. apply disj_sym, disj_mv_blk. congruence. Qed.
Lemma disj_mm_blk A B : mblk A <> mblk B -> disj (inm A) (inm B).
Proof. intros H a [i [k [_ [_ ->]]]] [j [l [_ [_ E]]]]. unfold ma in E. congruence. Qed.

(** Solves the side conditions of a theorem on a concrete memory. *)
Ltac ex_tac :=
  repeat match goal with |- _ /\ _ => split end;
  first [ apply vval_of; vm_compute; reflexivity
        | apply mval_of; vm_compute; reflexivity
        | apply disj_vv_blk; vm_compute; discriminate
        | apply disj_mv_blk; vm_compute; discriminate
        | apply disj_vm_blk; vm_compute; discriminate
        | apply disj_mm_blk; vm_compute; discriminate
        | unfold mwf; cbn; lia
        | cbn; lia
        | cbn; reflexivity
        | idtac ].
