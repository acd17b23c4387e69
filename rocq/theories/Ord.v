(** * Ordered scalars

    The type [real] of H2Lib (/repo/Library/settings.h:60-130) together with
    the comparison [x < y].  As for [fops], the operations are a record;
    theorems state which laws they need, often none. *)
From Coq Require Import Ring Arith Lia Bool List.
From Verif Require Import Fld.

Record ofops := OFOps {
  of_f :> fops;
  flt : of_f -> of_f -> bool       (* x < y *)
}.
Arguments flt {_}.

(** [x <= y], as the negation of [y < x]. *)
Definition fleb {K : ofops} (x y : K) : bool := negb (flt y x).
Definition fle {K : ofops} (x y : K) : Prop := flt y x = false.

Definition f2 {K : fops} : K := fadd f1 f1.      (* the literal 2.0 *)

(** REAL_MIN and REAL_MAX, Library/basic.h:426-428 and 445-447. *)
Definition fmin {K : ofops} (x y : K) : K := if flt x y then x else y.
Definition fmax {K : ofops} (x y : K) : K := if flt x y then y else x.

(** [<] is a strict weak order.  Holds for every numerical type as long as no
    value is NaN, rounding included. *)
Record order_laws (K : ofops) : Prop := OrderLaws {
  od_irrefl : forall x : K, flt x x = false;
  od_trans : forall x y z : K, flt x y = true -> flt y z = true -> flt x z = true;
  od_cotrans : forall x y z : K, flt x z = true -> flt x y = true \/ flt y z = true
}.

(** Laws of an ordered field. *)
Record ofield_laws (K : ofops) : Prop := OFieldLaws {
  ol_field : field_laws K;
  ol_irrefl : forall x : K, flt x x = false;
  ol_trans : forall x y z : K, flt x y = true -> flt y z = true -> flt x z = true;
  ol_total : forall x y : K, x <> y -> flt x y = true \/ flt y x = true;
  ol_add : forall x y z : K, flt x y = true -> flt (fadd x z) (fadd y z) = true;
  ol_mul : forall x y : K, flt f0 x = true -> flt f0 y = true -> flt f0 (fmul x y) = true
}.

Fixpoint pow2 {K : fops} (k : nat) : K :=
  match k with O => f1 | S k' => fmul f2 (pow2 k') end.

(** Archimedean property: no infinitely small distances. *)
Definition archimedean (K : ofops) : Prop :=
  forall x y : K, flt f0 y = true -> exists k, flt x (fmul (pow2 k) y) = true.

(** The square root, as used by the distance functions. *)
Definition sqrt_laws {K : ofops} (sq : K -> K) : Prop :=
  forall x, fle f0 x -> fle f0 (sq x) /\ fmul (sq x) (sq x) = x.

Section Order.
  Context {K : ofops} (O : order_laws K).

  Lemma ole_refl (x : K) : fle x x.
  Proof. apply (od_irrefl K O). Qed.

  Lemma ole_trans (x y z : K) : fle x y -> fle y z -> fle x z.
  Proof.
    unfold fle. intros H1 H2. destruct (flt z x) eqn:E; [|reflexivity].
    destruct (od_cotrans K O z y x E); congruence.
  Qed.

  Lemma olt_le (x y : K) : flt x y = true -> fle x y.
  Proof.
    unfold fle. intros H. destruct (flt y x) eqn:E; [|reflexivity].
    rewrite <- (od_irrefl K O x). symmetry. eapply od_trans; eassumption.
  Qed.

  Lemma olt_le_trans (x y z : K) : flt x y = true -> fle y z -> flt x z = true.
  Proof.
    unfold fle. intros H1 H2. destruct (od_cotrans K O x z y H1); [assumption|congruence].
  Qed.

  Lemma ole_lt_trans (x y z : K) : fle x y -> flt y z = true -> flt x z = true.
  Proof.
    unfold fle. intros H1 H2. destruct (od_cotrans K O y x z H2); [congruence|assumption].
  Qed.

  Lemma fmin_l (x y : K) : fle (fmin x y) x.
  Proof. unfold fmin. destruct (flt x y) eqn:E; [apply ole_refl|exact E]. Qed.
  Lemma fmin_r (x y : K) : fle (fmin x y) y.
  Proof. unfold fmin. destruct (flt x y) eqn:E; [apply olt_le; exact E|apply ole_refl]. Qed.
  Lemma fmax_l (x y : K) : fle x (fmax x y).
  Proof. unfold fmax. destruct (flt x y) eqn:E; [apply olt_le; exact E|apply ole_refl]. Qed.
  Lemma fmax_r (x y : K) : fle y (fmax x y).
  Proof. unfold fmax. destruct (flt x y) eqn:E; [apply ole_refl|exact E]. Qed.
End Order.

Section OField.
  Context {K : ofops} (L : ofield_laws K).
  Let RL : ring_laws K := fl_ring K (ol_field K L).
  Add Ring Kring : (rl_ring K (fl_ring K (ol_field K L))).

  Lemma ofield_order : order_laws K.
  Proof.
    constructor.
    - apply (ol_irrefl K L).
    - apply (ol_trans K L).
    - intros x y z H. destruct (feqb x y) eqn:E.
      + apply (fl_eqb K (ol_field K L)) in E. subst y. right. exact H.
      + assert (x <> y) as N.
        { intros ->. rewrite (proj2 (fl_eqb K (ol_field K L) y y) eq_refl) in E. discriminate. }
        destruct (ol_total K L x y N) as [H1|H1]; [left; exact H1|].
        right. eapply ol_trans; eassumption.
  Qed.

  Lemma fle_antisym (x y : K) : fle x y -> fle y x -> x = y.
  Proof.
    unfold fle. intros H1 H2. destruct (feqb x y) eqn:E; [apply (fl_eqb K (ol_field K L)); exact E|].
    assert (x <> y) as N.
    { intros ->. rewrite (proj2 (fl_eqb K (ol_field K L) y y) eq_refl) in E. discriminate. }
    destruct (ol_total K L x y N); congruence.
  Qed.

  Lemma flt_ne (x y : K) : flt x y = true -> x <> y.
  Proof. intros H ->. rewrite (ol_irrefl K L) in H. discriminate. Qed.

  Lemma fle_cases (x y : K) : fle x y -> x = y \/ flt x y = true.
  Proof.
    intros H. destruct (flt x y) eqn:E; [right; reflexivity|left; apply fle_antisym; assumption].
  Qed.

  Lemma flt_sub (x y : K) : flt x y = true <-> flt f0 (fsub y x) = true.
  Proof.
    split; intros H.
    - apply (ol_add K L _ _ (fopp x)) in H.
      replace (fadd x (fopp x)) with (@f0 K) in H by ring.
      replace (fadd y (fopp x)) with (fsub y x) in H by ring. exact H.
    - apply (ol_add K L _ _ x) in H.
      replace (fadd f0 x) with x in H by ring.
      replace (fadd (fsub y x) x) with y in H by ring. exact H.
  Qed.

  Lemma fle_sub (x y : K) : fle x y <-> fle f0 (fsub y x).
  Proof.
    unfold fle. rewrite <- !not_true_iff_false. rewrite (flt_sub y x), (flt_sub (fsub y x) f0).
    replace (fsub f0 (fsub y x)) with (fsub x y) by ring. tauto.
  Qed.

  Lemma flt_add_pos (x y : K) : flt f0 x = true -> flt f0 y = true -> flt f0 (fadd x y) = true.
  Proof.
    intros H1 H2. apply (ol_trans K L _ x); [exact H1|].
    apply (ol_add K L _ _ x) in H2.
    replace (fadd f0 x) with x in H2 by ring.
    replace (fadd y x) with (fadd x y) in H2 by ring. exact H2.
  Qed.

  Lemma fle_add_nn (x y : K) : fle f0 x -> fle f0 y -> fle f0 (fadd x y).
  Proof.
    intros H1 H2. destruct (fle_cases _ _ H1) as [<-|P1].
    - replace (fadd f0 y) with y by ring. exact H2.
    - destruct (fle_cases _ _ H2) as [<-|P2].
      + replace (fadd x f0) with x by ring. exact H1.
      + apply (olt_le ofield_order). apply flt_add_pos; assumption.
  Qed.

  Lemma fle_mul_nn (x y : K) : fle f0 x -> fle f0 y -> fle f0 (fmul x y).
  Proof.
    intros H1 H2. destruct (fle_cases _ _ H1) as [<-|P1].
    - replace (fmul f0 y) with (@f0 K) by ring. apply (ole_refl ofield_order).
    - destruct (fle_cases _ _ H2) as [<-|P2].
      + replace (fmul x f0) with (@f0 K) by ring. apply (ole_refl ofield_order).
      + apply (olt_le ofield_order). apply (ol_mul K L); assumption.
  Qed.

  Lemma fopp_pos (x : K) : flt x f0 = true -> flt f0 (fopp x) = true.
  Proof. intros H. apply flt_sub in H. replace (fopp x) with (fsub f0 x) by ring. exact H. Qed.

  Lemma fle_opp_nn (x : K) : fle x f0 -> fle f0 (fopp x).
  Proof. intros H. apply fle_sub in H. replace (fopp x) with (fsub f0 x) by ring. exact H. Qed.

  Lemma fsq_nn (x : K) : fle f0 (fmul x x).
  Proof.
    destruct (flt x f0) eqn:E.
    - replace (fmul x x) with (fmul (fopp x) (fopp x)) by ring.
      apply (olt_le ofield_order). apply (ol_mul K L); apply fopp_pos; exact E.
    - apply fle_mul_nn; exact E.
  Qed.

  Lemma f1_pos : flt f0 (@f1 K) = true.
  Proof.
    destruct (flt f0 (@f1 K)) eqn:E; [reflexivity|]. exfalso.
    pose proof (fsq_nn (@f1 K)) as H. replace (fmul f1 f1) with (@f1 K) in H by ring.
    apply (fl_1_neq_0 K (ol_field K L)). apply fle_antisym; assumption.
  Qed.

  Lemma f2_pos : flt f0 (@f2 K) = true.
  Proof. apply flt_add_pos; apply f1_pos. Qed.

  Lemma finv_pos (x : K) : flt f0 x = true -> flt f0 (finv x) = true.
  Proof.
    intros H. assert (x <> f0) as N by (intros ->; rewrite (ol_irrefl K L) in H; discriminate).
    destruct (flt f0 (finv x)) eqn:E; [reflexivity|]. exfalso.
    assert (fle f0 (fopp (finv x))) as H1 by (apply fle_opp_nn; exact E).
    assert (fle f0 (fmul x (fopp (finv x)))) as H2
        by (apply fle_mul_nn; [apply (olt_le ofield_order); exact H|exact H1]).
    replace (fmul x (fopp (finv x))) with (fopp (fmul x (finv x))) in H2 by ring.
    rewrite (finv_r (ol_field K L)) in H2 by exact N.
    pose proof f1_pos as H3. apply flt_sub in H3.
    unfold fle in H2. apply not_true_iff_false in H2. apply H2.
    apply flt_sub. replace (fsub f0 (fopp f1)) with (@f1 K) by ring. apply f1_pos.
  Qed.

  Lemma half_def (x : K) : fadd (fdiv x f2) (fdiv x f2) = x.
  Proof.
    unfold fdiv. transitivity (fmul x (fmul f2 (finv f2))); [unfold f2; ring|].
    rewrite (finv_r (ol_field K L)); [ring|]. apply not_eq_sym, flt_ne, f2_pos.
  Qed.

  Lemma half_zero : fdiv (@f0 K) f2 = f0.
  Proof. unfold fdiv. ring. Qed.

  Lemma half_pos (x : K) : flt f0 x = true -> flt f0 (fdiv x f2) = true.
  Proof. intros H. apply (ol_mul K L); [exact H|apply finv_pos, f2_pos]. Qed.

  (** The midpoint of an interval lies strictly inside. *)
  Lemma mid_lt (a b : K) : flt a b = true ->
    flt a (fdiv (fadd b a) f2) = true /\ flt (fdiv (fadd b a) f2) b = true.
  Proof.
    intros H. apply flt_sub in H. apply half_pos in H. set (h := fdiv (fsub b a) f2) in *.
    assert (E : fdiv (fadd b a) f2 = fadd a h).
    { transitivity (fadd (fdiv (fsub b a) f2) (fadd (fdiv a f2) (fdiv a f2))).
      - unfold fdiv. ring.
      - rewrite half_def. unfold h. ring. }
    assert (E2 : b = fadd a (fadd h h)) by (unfold h; rewrite half_def; ring).
    split; apply flt_sub; rewrite E.
    - replace (fsub (fadd a h) a) with h by ring. exact H.
    - rewrite E2 at 1. replace (fsub (fadd a (fadd h h)) (fadd a h)) with h by ring. exact H.
  Qed.

  Lemma mid_width (a b : K) :
    fsub (fdiv (fadd b a) f2) a = fdiv (fsub b a) f2 /\
    fsub b (fdiv (fadd b a) f2) = fdiv (fsub b a) f2.
  Proof.
    split.
    - rewrite <- (half_def a) at 2. unfold fdiv. ring.
    - rewrite <- (half_def b) at 1. unfold fdiv. ring.
  Qed.

  Lemma fsq_le (x y : K) : fle f0 x -> fle x y -> fle (fmul x x) (fmul y y).
  Proof.
    intros H1 H2. apply fle_sub. replace (fsub (fmul y y) (fmul x x))
      with (fmul (fsub y x) (fadd y x)) by ring.
    apply fle_mul_nn; [apply fle_sub in H2; exact H2|].
    apply fle_add_nn; [|exact H1]. eapply (ole_trans ofield_order); eassumption.
  Qed.

  Lemma fle_add (a b c d : K) : fle a b -> fle c d -> fle (fadd a c) (fadd b d).
  Proof.
    intros H1 H2. apply fle_sub. apply fle_sub in H1. apply fle_sub in H2.
    replace (fsub (fadd b d) (fadd a c)) with (fadd (fsub b a) (fsub d c)) by ring.
    apply fle_add_nn; assumption.
  Qed.

  Lemma sum_le n (f g : nat -> K) : (forall i, i < n -> fle (f i) (g i)) -> fle (sum n f) (sum n g).
  Proof.
    induction n as [|n IH]; intros H; cbn; [apply (ole_refl ofield_order)|].
    apply fle_add; [apply IH; intros; apply H; lia|apply H; lia].
  Qed.

  Lemma sum_nn n (f : nat -> K) : (forall i, i < n -> fle f0 (f i)) -> fle f0 (sum n f).
  Proof.
    induction n as [|n IH]; intros H; cbn; [apply (ole_refl ofield_order)|].
    apply fle_add_nn; [apply IH; intros; apply H; lia|apply H; lia].
  Qed.

  Lemma pow2_pos k : flt f0 (@pow2 K k) = true.
  Proof. induction k as [|k IH]; cbn; [apply f1_pos|apply (ol_mul K L); [apply f2_pos|exact IH]]. Qed.

  Lemma flt_mul_pos (a x y : K) : flt f0 a = true -> (flt (fmul a x) (fmul a y) = true <-> flt x y = true).
  Proof.
    intros Ha. split; intros H.
    - destruct (flt x y) eqn:E; [reflexivity|]. exfalso.
      assert (fle (fmul a y) (fmul a x)) as H2.
      { apply fle_sub. replace (fsub (fmul a x) (fmul a y)) with (fmul a (fsub x y)) by ring.
        apply fle_mul_nn; [apply (olt_le ofield_order); exact Ha|]. apply fle_sub in E. exact E. }
      unfold fle in H2. congruence.
    - apply flt_sub in H. apply flt_sub.
      replace (fsub (fmul a y) (fmul a x)) with (fmul a (fsub y x)) by ring.
      apply (ol_mul K L); assumption.
  Qed.

  Lemma fle_sub_sub (a b c d : K) : fle a b -> fle d c -> fle (fsub a c) (fsub b d).
  Proof.
    intros H1 H2. apply fle_sub. apply fle_sub in H1. apply fle_sub in H2.
    replace (fsub (fsub b d) (fsub a c)) with (fadd (fsub b a) (fsub c d)) by ring.
    apply fle_add_nn; assumption.
  Qed.

  Lemma pow2_half k (w g : K) : flt w (fmul (pow2 (S k)) g) = true -> flt (fdiv w f2) (fmul (pow2 k) g) = true.
  Proof.
    intros H. apply (flt_mul_pos f2); [apply f2_pos|].
    replace (fmul f2 (fdiv w f2)) with w.
    - replace (fmul f2 (fmul (pow2 k) g)) with (fmul (pow2 (S k)) g); [exact H|]. cbn. ring.
    - rewrite <- (half_def w) at 1. unfold f2 at 3. ring.
  Qed.

  Lemma pow2_0 (g : K) : fmul (pow2 0) g = g.
  Proof. cbn. ring. Qed.

  Lemma pow2_grow k (g : K) : flt f0 g = true -> flt (fmul (pow2 k) g) (fmul (pow2 (S k)) g) = true.
  Proof.
    intros Hg. apply flt_sub. replace (fsub (fmul (pow2 (S k)) g) (fmul (pow2 k) g)) with (fmul (pow2 k) g).
    - apply (ol_mul K L); [apply pow2_pos|exact Hg].
    - cbn [pow2]. unfold f2. ring.
  Qed.
End OField.
