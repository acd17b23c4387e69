(** * Abstract scalars

    H2Lib computes with the types [real] and [field]
    (/repo/Library/settings.h:60-130; [field] is [double], [float] or a complex
    type, depending on the build).  The model abstracts from the concrete type:
    a scalar structure is a record of operations, and theorems quantify over
    every structure that satisfies the laws of a commutative ring (or field)
    with a conjugation.  Simplification: rounding is not modelled. *)
From Coq Require Import Ring_theory Field_theory Ring ZArith Lia Arith Bool List.
Import ListNotations.

Record fops := FOps {
  car :> Type;
  f0 : car;
  f1 : car;
  fadd : car -> car -> car;
  fmul : car -> car -> car;
  fsub : car -> car -> car;
  fopp : car -> car;
  finv : car -> car;              (* 1.0 / x *)
  fconj : car -> car;             (* CONJ(x), settings.h *)
  feqb : car -> car -> bool       (* x == y *)
}.

Arguments f0 {_}. Arguments f1 {_}. Arguments fadd {_}. Arguments fmul {_}.
Arguments fsub {_}. Arguments fopp {_}. Arguments finv {_}. Arguments fconj {_}.
Arguments feqb {_}.

Declare Scope fld_scope.
Delimit Scope fld_scope with F.
Bind Scope fld_scope with car.
Notation "0" := f0 : fld_scope.
Notation "1" := f1 : fld_scope.
Notation "x + y" := (fadd x y) : fld_scope.
Notation "x - y" := (fsub x y) : fld_scope.
Notation "x * y" := (fmul x y) : fld_scope.
Notation "- x" := (fopp x) : fld_scope.

(** Division [x / y] as used in the code. *)
Definition fdiv {K : fops} (x y : K) : K := fmul x (finv y).
Notation "x / y" := (fdiv x y) : fld_scope.

Record ring_laws (K : fops) : Prop := RingLaws {
  rl_ring : ring_theory (@f0 K) f1 fadd fmul fsub fopp eq;
  rl_conj_add : forall x y : K, fconj (fadd x y) = fadd (fconj x) (fconj y);
  rl_conj_mul : forall x y : K, fconj (fmul x y) = fmul (fconj x) (fconj y);
  rl_conj_conj : forall x : K, fconj (fconj x) = x
}.

Record field_laws (K : fops) : Prop := FieldLaws {
  fl_ring : ring_laws K;
  fl_1_neq_0 : (@f1 K) <> f0;
  fl_inv : forall x : K, x <> f0 -> fmul (finv x) x = f1;
  fl_eqb : forall x y : K, feqb x y = true <-> x = y
}.

(** Finite sums [sum n f = f 0 + ... + f (n-1)]. *)
Fixpoint sum {K : fops} (n : nat) (f : nat -> K) : K :=
  match n with
  | O => f0
  | S n' => fadd (sum n' f) (f n')
  end.

Section Laws.
  Context {K : fops} (L : ring_laws K).
  Add Ring Kring : (rl_ring K L).

  Lemma fsub_def (x y : K) : fsub x y = fadd x (fopp y).
  Proof. ring. Qed.

  Lemma fconj_0 : fconj (@f0 K) = f0.
  Proof.
    assert (H : fconj (@f0 K) = fadd (fconj f0) (fconj f0)).
    { rewrite <- (rl_conj_add K L). f_equal. ring. }
    set (c := fconj (@f0 K)) in *. clearbody c.
    assert (H2 : fsub c c = fsub (fadd c c) c) by (rewrite <- H; reflexivity).
    replace (fsub c c) with (@f0 K) in H2 by ring.
    replace (fsub (fadd c c) c) with c in H2 by ring.
    symmetry. exact H2.
  Qed.

  Lemma fconj_1 : fconj (@f1 K) = f1.
  Proof.
    transitivity (fmul (fconj (@f1 K)) (fconj (fconj f1))).
    - rewrite (rl_conj_conj K L). ring.
    - rewrite <- (rl_conj_mul K L).
      replace (fmul (@f1 K) (fconj f1)) with (fconj (@f1 K)) by ring.
      apply (rl_conj_conj K L).
  Qed.

  Lemma fconj_opp (x : K) : fconj (fopp x) = fopp (fconj x).
  Proof.
    assert (H : fadd (fconj (fopp x)) (fconj x) = f0).
    { rewrite <- (rl_conj_add K L).
      replace (fadd (fopp x) x) with (@f0 K) by ring. apply fconj_0. }
    transitivity (fsub (fadd (fconj (fopp x)) (fconj x)) (fconj x)); [ring|].
    rewrite H. ring.
  Qed.

  Lemma fconj_sub (x y : K) : fconj (fsub x y) = fsub (fconj x) (fconj y).
  Proof.
    rewrite !fsub_def, (rl_conj_add K L), fconj_opp. reflexivity.
  Qed.

  Lemma sum_ext n (f g : nat -> K) :
    (forall i, i < n -> f i = g i) -> sum n f = sum n g.
  Proof.
    induction n as [|n IH]; intros H; simpl; [reflexivity|].
    rewrite IH by (intros; apply H; lia). rewrite H by lia. reflexivity.
  Qed.

  Lemma sum_0 n (f : nat -> K) : (forall i, i < n -> f i = f0) -> sum n f = f0.
  Proof.
    induction n as [|n IH]; intros H; simpl; [reflexivity|].
    rewrite IH by (intros; apply H; lia). rewrite H by lia. ring.
  Qed.

  Lemma sum_add n (f g : nat -> K) :
    sum n (fun i => fadd (f i) (g i)) = fadd (sum n f) (sum n g).
  Proof. induction n as [|n IH]; simpl; [ring|]. rewrite IH. ring. Qed.

  Lemma sum_sub n (f g : nat -> K) :
    sum n (fun i => fsub (f i) (g i)) = fsub (sum n f) (sum n g).
  Proof. induction n as [|n IH]; simpl; [ring|]. rewrite IH. ring. Qed.

  Lemma sum_mul_l n (c : K) (f : nat -> K) :
    sum n (fun i => fmul c (f i)) = fmul c (sum n f).
  Proof. induction n as [|n IH]; simpl; [ring|]. rewrite IH. ring. Qed.

  Lemma sum_mul_r n (c : K) (f : nat -> K) :
    sum n (fun i => fmul (f i) c) = fmul (sum n f) c.
  Proof. induction n as [|n IH]; simpl; [ring|]. rewrite IH. ring. Qed.

  Lemma sum_opp n (f : nat -> K) :
    sum n (fun i => fopp (f i)) = fopp (sum n f).
  Proof. induction n as [|n IH]; simpl; [ring|]. rewrite IH. ring. Qed.

  Lemma sum_conj n (f : nat -> K) :
    fconj (sum n f) = sum n (fun i => fconj (f i)).
  Proof.
    induction n as [|n IH]; simpl; [apply fconj_0|].
    rewrite (rl_conj_add K L), IH. reflexivity.
  Qed.

  Lemma sum_app m n (f : nat -> K) :
    sum (m + n) f = fadd (sum m f) (sum n (fun i => f (m + i)%nat)).
  Proof.
    induction n as [|n IH]; simpl.
    - rewrite Nat.add_0_r. ring.
    - rewrite Nat.add_succ_r. simpl. rewrite IH. ring.
  Qed.

  Lemma sum_swap m n (f : nat -> nat -> K) :
    sum m (fun i => sum n (fun j => f i j)) = sum n (fun j => sum m (fun i => f i j)).
  Proof.
    induction m as [|m IH]; simpl.
    - symmetry. apply sum_0. reflexivity.
    - rewrite IH, <- sum_add. reflexivity.
  Qed.

  Lemma sum_single n k (f : nat -> K) :
    k < n -> (forall i, i < n -> i <> k -> f i = f0) -> sum n f = f k.
  Proof.
    induction n as [|n IH]; intros Hk H; [lia|]. simpl.
    destruct (Nat.eq_dec k n) as [->|Hne].
    - rewrite sum_0 by (intros; apply H; lia). ring.
    - rewrite IH by (try lia; intros; apply H; lia).
      rewrite (H n) by lia. ring.
  Qed.

  Lemma sum_head n (f : nat -> K) :
    sum (S n) f = fadd (f 0%nat) (sum n (fun i => f (S i))).
  Proof.
    change (S n) with (1 + n)%nat. rewrite sum_app. simpl.
    replace (fadd f0 (f 0%nat)) with (f 0%nat) by ring. reflexivity.
  Qed.

  (** Sums over a list of (key, value) pairs. *)
  Fixpoint lsum {A} (f : A -> K) (l : list A) : K :=
    match l with [] => f0 | x :: l' => fadd (f x) (lsum f l') end.

  Lemma lsum_app {A} (f : A -> K) l1 l2 :
    lsum f (l1 ++ l2) = fadd (lsum f l1) (lsum f l2).
  Proof. induction l1 as [|x l1 IH]; simpl; [ring|]. rewrite IH. ring. Qed.
End Laws.

Lemma finv_r {K} (L : field_laws K) (x : K) : x <> f0 -> fmul x (finv x) = f1.
Proof.
  intros H. rewrite (Rmul_comm (rl_ring K (fl_ring K L))). apply (fl_inv K L); exact H.
Qed.

Lemma fl_field {K} (L : field_laws K) :
  field_theory (@f0 K) f1 fadd fmul fsub fopp fdiv finv eq.
Proof.
  constructor.
  - exact (rl_ring K (fl_ring K L)).
  - exact (fl_1_neq_0 K L).
  - reflexivity.
  - intros x Hx. apply (fl_inv K L). exact Hx.
Qed.

(** ** Instances *)
Definition Zf : fops :=
  FOps Z 0%Z 1%Z Z.add Z.mul Z.sub Z.opp (fun x => Z.div 1 x) (fun x => x) Z.eqb.

Lemma Zf_ring : ring_laws Zf.
Proof.
  constructor; try reflexivity. exact InitialRing.Zth.
Qed.
