(** * Block elimination for the inverse of a matrix *)
From Coq Require Import Arith Lia List Bool Ring.
From Verif Require Import Fld Ord Prog Arr View Loop Line Spec FactorSpec FactorP4 Avector Amatrix AmatrixP AmatrixP2 Factor Chol CholSpec Qr QrSpec QrP QrP9 Lr LrP CopSpec Rkmatrix RkSpec RkP HfacP4 HfacP5.
Import ListNotations.
Local Open Scope nat_scope.

(** [B] is the inverse of the matrix [A] of order [n]. *)
Definition inverse {K : fops} (n : nat) (A B : nat -> nat -> K) : Prop :=
  forall i j, i < n -> j < n -> mmul n A B i j = idf i j /\ mmul n B A i j = idf i j.

Lemma fin_choice {A} (d : A) n (P : nat -> A -> Prop) : (forall k, k < n -> exists x, P k x) -> exists f, forall k, k < n -> P k (f k).
Proof.
  induction n as [|n IH]; intros HP; [exists (fun _ => d); intros; lia|]. destruct IH as (f & Hf); [intros k Hk; apply HP; lia|]. destruct (HP n ltac:(lia)) as (x & Hx).
  exists (fun k => if k =? n then x else f k). intros k Hk. destruct (Nat.eqb_spec k n) as [->|N]; [exact Hx|apply Hf; lia].
Qed.

Section Alg.
Context {K : fops} (L : field_laws K).
Notation RL := (fl_ring K L).
Add Ring KringHinv : (rl_ring K (fl_ring K L)).
Notation lo := (tripart true true).
Notation up := (tripart false false).
Implicit Types (A B C D F T : nat -> nat -> K).

Lemma inverse_ext n A A' B B' : inverse n A B -> (forall i j, i < n -> j < n -> A' i j = A i j) -> (forall i j, i < n -> j < n -> B' i j = B i j) -> inverse n A' B'.
Proof.
  intros HI HA HB i j Hi Hj. destruct (HI i j Hi Hj) as [E1 E2]. split; [rewrite <- E1|rewrite <- E2]; apply sum_ext; intros k Hk; rewrite HA, HB by assumption; reflexivity.
Qed.
Lemma inverse_right n F A B : lrinv n n F A -> (forall i, i < n -> F i i <> f0) -> (forall i j, i < n -> j < n -> mmul n A B i j = idf i j) -> inverse n A B.
Proof. intros HF HZ HI i j Hi Hj. split; [apply HI; assumption|]. eapply (inv_both L); [eapply lrinv_regular; eassumption|exact HI|exact Hi|exact Hj]. Qed.
Lemma inverse_unique n A B B' : inverse n A B -> inverse n A B' -> forall i j, i < n -> j < n -> B i j = B' i j.
Proof.
  intros H1 H2 i j Hi Hj. transitivity (mmul n B (mmul n A B') i j).
  - rewrite <- (mmul_idr L n B i j Hj). apply sum_ext. intros k Hk. f_equal. symmetry. apply (proj1 (H2 k j Hk Hj)).
  - rewrite <- (mmul_assoc L). rewrite <- (mmul_idl L n B' i j Hi). apply sum_ext. intros k Hk. f_equal. apply (proj2 (H1 i k Hi Hk)).
Qed.

(** ** Two by two blocks *)
Section Two.
Variables (w r : nat) (C B T : nat -> nat -> K).
Hypothesis HB : inverse (w + r) C B.
Hypothesis HT : inverse w C T.
Let WL (i p : nat) : K := sum w (fun q => C (w + i)%nat q * T q p)%F.
Let WU (p j : nat) : K := sum w (fun q => T p q * C q (w + j)%nat)%F.
Lemma row_T (b : nat -> K) p : p < w -> sum w (fun q => sum w (fun s => b s * C s q) * T q p)%F = b p.
Proof.
  intros Hp. change (mmul w (mmul w (fun _ : nat => b) C) T 0 p = b p). rewrite (mmul_assoc L). transitivity (mmul w (fun _ : nat => b) idf 0 p); [|apply (mmul_idr L w (fun _ : nat => b) 0 p Hp)].
  apply sum_ext. intros k Hk. f_equal. apply (proj1 (HT k p Hk Hp)).
Qed.
Lemma T_col (b : nat -> K) p : p < w -> sum w (fun q => T p q * sum w (fun s => C q s * b s))%F = b p.
Proof.
  intros Hp. change (mmul w T (mmul w C (fun s _ : nat => b s)) p 0 = b p). rewrite <- (mmul_assoc L). transitivity (mmul w idf (fun s _ : nat => b s) p 0); [|apply (mmul_idl L w (fun s _ : nat => b s) p 0 Hp)].
  apply sum_ext. intros k Hk. f_equal. apply (proj2 (HT p k Hp Hk)).
Qed.
Lemma idf_0 i j : i <> j -> @idf K i j = f0.
Proof. intros N. unfold idf. destruct (Nat.eqb_spec i j); [contradiction|reflexivity]. Qed.
Lemma row_eq i q : i < w + r -> q < w -> (sum w (fun s => B i s * C s q) + sum r (fun j => B i (w + j)%nat * C (w + j)%nat q) = idf i q)%F.
Proof. intros Hi Hq. rewrite <- (proj2 (HB i q Hi ltac:(lia))). unfold mmul. rewrite (sum_app RL). reflexivity. Qed.
Lemma col_eq q j : q < w -> j < w + r -> (sum w (fun s => C q s * B s j) + sum r (fun i => C q (w + i)%nat * B (w + i)%nat j) = idf q j)%F.
Proof. intros Hq Hj. rewrite <- (proj1 (HB q j ltac:(lia) Hj)). unfold mmul. rewrite (sum_app RL). reflexivity. Qed.

Lemma row_sum (b : nat -> K) p : sum w (fun q => sum r (fun j => b j * C (w + j)%nat q) * T q p)%F = sum r (fun j => b j * WL j p)%F.
Proof.
  transitivity (sum w (fun q => sum r (fun j => b j * C (w + j)%nat q * T q p))%F).
  { apply sum_ext. intros q _. symmetry. apply (sum_mul_r RL). }
  rewrite (sum_swap RL). apply sum_ext. intros j _. unfold WL. rewrite <- (sum_mul_l RL). apply sum_ext. intros q _. ring.
Qed.
Lemma col_sum (b : nat -> K) p : sum w (fun q => T p q * sum r (fun i => C q (w + i)%nat * b i))%F = sum r (fun i => WU p i * b i)%F.
Proof.
  transitivity (sum w (fun q => sum r (fun i => T p q * C q (w + i)%nat * b i))%F).
  { apply sum_ext. intros q _. rewrite <- (sum_mul_l RL). apply sum_ext. intros; ring. }
  rewrite (sum_swap RL). apply sum_ext. intros i _. unfold WU. apply (sum_mul_r RL).
Qed.

Lemma two_row i p : i < w + r -> p < w -> (B i p + sum r (fun j => B i (w + j)%nat * WL j p) = sum w (fun q => idf i q * T q p))%F.
Proof.
  intros Hi Hp. rewrite <- row_sum, <- (row_T (B i) p Hp) at 1. rewrite <- (sum_add RL). apply sum_ext. intros q Hq. rewrite <- (row_eq i q Hi Hq). ring.
Qed.
Lemma two_col p j : p < w -> j < w + r -> (B p j + sum r (fun i => WU p i * B (w + i)%nat j) = sum w (fun q => T p q * idf q j))%F.
Proof.
  intros Hp Hj. rewrite <- col_sum, <- (T_col (fun s => B s j) p Hp) at 1. rewrite <- (sum_add RL). apply sum_ext. intros q Hq. rewrite <- (col_eq q j Hq Hj). ring.
Qed.
End Two.

(** ** The elimination of the rows and columns [o], ..., [o+w-1] *)
Section Step.
Variables (n : nat) (F : nat -> nat -> K).
Hypothesis HZ : forall i, i < n -> F i i <> f0.
Definition wlow (o w : nat) T (i p : nat) : K := sum w (fun q => sc n o F i (o + q)%nat * T q p)%F.
Definition wupp (o w : nat) T (p j : nat) : K := sum w (fun q => T p q * sc n o F (o + q)%nat j)%F.

(** The remaining matrix *)
Lemma sc_step o w T i j : o + w <= n -> inverse w (fun p q => sc n o F (o + p) (o + q)) T -> o + w <= i -> o + w <= j ->
  sc n (o + w) F i j = (sc n o F i j + - (1) * sum w (fun p => wlow o w T i p * sc n o F (o + p)%nat j))%F.
Proof.
  intros Hw HT Hi Hj. rewrite (sc_next L n o w F i j Hw Hi Hj). f_equal. f_equal.
  set (F' := fun p q : nat => F (o + p)%nat (o + q)%nat).
  set (Fi := fun (_ : nat) (q : nat) => F i (o + q)%nat). set (Fj := fun (q : nat) (_ : nat) => F (o + q)%nat j).
  assert (E1 : forall k, k < w -> sc n o F i (o + k) = mmul w Fi (up F') 0 k) by (intros k Hk; apply (sc_col L); lia).
  assert (E2 : forall k, k < w -> sc n o F (o + k) j = mmul w (lo F') Fj k 0) by (intros k Hk; apply (sc_row L); lia).
  assert (EI : forall p q, p < w -> q < w -> mmul w (up F') (mmul w T (lo F')) p q = idf p q).
  { intros p q Hp Hq. revert p Hp. apply (tri_unique L false w (lo F') (fun p => mmul w (up F') (mmul w T (lo F')) p q) (fun p => idf p q)).
    - intros a b _ _ Hab. apply lo_0. exact Hab.
    - intros a Ha. unfold tripart. rewrite Nat.eqb_refl. exact (fl_1_neq_0 K L).
    - intros p Hp. change (mmul w (lo F') (mmul w (up F') (mmul w T (lo F'))) p q = mmul w (lo F') idf p q). rewrite (mmul_idr L) by exact Hq.
      rewrite <- (mmul_assoc L), <- (mmul_assoc L). rewrite <- (mmul_idl L w (lo F') p q Hp). apply sum_ext. intros k Hk. f_equal.
      rewrite <- (proj1 (HT p k Hp Hk)). apply sum_ext. intros s Hs. f_equal. apply (lrinv_prod L w F' (fun p q => sc n o F (o + p) (o + q)) (sc_diag L n o w F Hw)); assumption. }
  symmetry. transitivity (mmul w (mmul w (mmul w Fi (up F')) T) (mmul w (lo F') Fj) 0 0).
  { apply sum_ext. intros p Hp. rewrite E2 by exact Hp. f_equal. apply sum_ext. intros q Hq. rewrite E1 by exact Hq. reflexivity. }
  rewrite (mmul_assoc L w (mmul w Fi (up F'))), (mmul_assoc L w Fi).
  apply sum_ext. intros k Hk. f_equal. transitivity (mmul w (up F') (mmul w (mmul w T (lo F')) Fj) k 0); [apply sum_ext; intros s Hs; f_equal; symmetry; apply (mmul_assoc L)|]. rewrite <- (mmul_assoc L).
  change (F (o + k)%nat j) with (Fj k 0). rewrite <- (mmul_idl L w Fj k 0 Hk). apply sum_ext. intros s Hs. f_equal. apply EI; assumption.
Qed.

Lemma sum_cut o (f : nat -> K) : o <= n -> sum n f = (sum o f + sum (n - o) (fun r => f (o + r)%nat))%F.
Proof. intros Ho. rewrite <- (sum_app RL). f_equal. lia. Qed.
(** The inverse of the remaining matrix *)
Lemma sc_inverse o D B : lrinv n n F D -> inverse n D B -> o <= n -> inverse (n - o) (fun p q => sc n o F (o + p) (o + q)) (fun p q => B (o + p) (o + q)).
Proof.
  intros HF HB Ho. eapply (inverse_right (n - o) (fun p q => F (o + p) (o + q))); [apply (sc_diag L); lia|intros i Hi; apply HZ; lia|].
  assert (HY : forall i l, i < n -> l < n -> mmul n (lo F) (mmul n (up F) B) i l = idf i l).
  { intros i l Hi Hl. rewrite <- (mmul_assoc L). rewrite <- (proj1 (HB i l Hi Hl)). apply sum_ext. intros k Hk. f_equal. apply (lrinv_prod L n F D HF); assumption. }
  assert (H0 : forall r l, r < o -> o <= l < n -> mmul n (up F) B r l = f0).
  { intros r l Hr Hl. revert r Hr. apply (tri_unique L false o (lo F) (fun r => mmul n (up F) B r l) (fun _ => f0)).
    - intros a b _ _ Hab. apply lo_0. exact Hab.
    - intros a Ha. unfold tripart. rewrite Nat.eqb_refl. exact (fl_1_neq_0 K L).
    - intros r Hr. transitivity (@f0 K); [|symmetry; apply (sum_0 RL); intros; ring].
      transitivity (mmul n (lo F) (mmul n (up F) B) r l); [|rewrite HY by lia; apply idf_0; lia].
      etransitivity; [|symmetry; apply (sum_cut o); exact Ho]. rewrite (sum_0 RL (n - o)); [unfold mvec; ring|]. intros s Hs. rewrite lo_0 by lia. ring. }
  intros i l Hi Hl. transitivity (@idf K (o + i) (o + l)).
  2:{ unfold idf. destruct (Nat.eqb_spec i l) as [->|N]; [rewrite Nat.eqb_refl; reflexivity|]. destruct (Nat.eqb_spec (o + i) (o + l)); [lia|reflexivity]. }
  rewrite <- (HY (o + i) (o + l)) by lia. etransitivity; [|symmetry; apply (sum_cut o); exact Ho]. rewrite (sum_0 RL o); [|intros s Hs; rewrite H0 by lia; ring].
  transitivity (sum (n - o) (fun r => lo F (o + i)%nat (o + r)%nat * mmul n (up F) B (o + r)%nat (o + l)%nat)%F); [|ring].
  unfold mmul at 1. transitivity (sum (n - o) (fun j => sum (n - o) (fun r => lo F (o + i)%nat (o + r)%nat * (up F (o + r)%nat (o + j)%nat * B (o + j)%nat (o + l)%nat)))%F).
  { apply sum_ext. intros j _. unfold sc. rewrite <- (sum_mul_r RL). apply sum_ext. intros; ring. }
  rewrite (sum_swap RL). apply sum_ext. intros r Hr. rewrite (sum_mul_l RL). f_equal. symmetry. etransitivity; [apply (sum_cut o); exact Ho|].
  rewrite (sum_0 RL o); [ring|]. intros s Hs. rewrite up_0 by lia. ring.
Qed.

Section Inv.
Variables (D B : nat -> nat -> K).
Hypothesis HF : lrinv n n F D.
Hypothesis HB : inverse n D B.
Variables (o w : nat) (T : nat -> nat -> K).
Hypothesis Hw : o + w <= n.
Hypothesis HT : inverse w (fun p q => sc n o F (o + p) (o + q)) T.
Let HC : inverse (w + (n - (o + w))) (fun p q => sc n o F (o + p) (o + q)) (fun p q => B (o + p) (o + q)).
Proof. replace (w + (n - (o + w))) with (n - o) by lia. apply (sc_inverse o D B HF HB). lia. Qed.

Lemma back_col i p : o + w <= i < n -> p < w -> B i (o + p)%nat = (- (1) * sum (n - (o + w)) (fun r => B i (o + w + r)%nat * wlow o w T (o + w + r) p))%F.
Proof.
  intros Hi Hp. pose proof (two_row _ _ _ _ _ HC HT (i - o) p ltac:(lia) Hp) as E. cbv beta in E. replace (o + (i - o)) with i in E by lia.
  rewrite (sum_0 RL w) in E. 2:{ intros q Hq. rewrite idf_0 by lia. ring. }
  unfold wlow. rewrite (sum_ext _ (fun r => B i (o + w + r)%nat * sum w (fun q => sc n o F (o + w + r)%nat (o + q)%nat * T q p))%F
    (fun j => B i (o + (w + j))%nat * sum w (fun q => sc n o F (o + (w + j))%nat (o + q)%nat * T q p))%F) by (intros r _; rewrite (Nat.add_assoc o w r); reflexivity).
  set (X := sum _ _) in *. clearbody X. transitivity (B i (o + p)%nat + X + - X)%F; [ring|]. rewrite E. ring.
Qed.
Lemma back_row p j : p < w -> o + w <= j < n -> B (o + p)%nat j = (- (1) * sum (n - (o + w)) (fun r => wupp o w T p (o + w + r)%nat * B (o + w + r)%nat j))%F.
Proof.
  intros Hp Hj. pose proof (two_col _ _ _ _ _ HC HT p (j - o) Hp ltac:(lia)) as E. cbv beta in E. replace (o + (j - o)) with j in E by lia.
  rewrite (sum_0 RL w) in E. 2:{ intros q Hq. rewrite idf_0 by lia. ring. }
  unfold wupp. rewrite (sum_ext _ (fun r => sum w (fun q => T p q * sc n o F (o + q)%nat (o + w + r)%nat) * B (o + w + r)%nat j)%F
    (fun i => sum w (fun q => T p q * sc n o F (o + q)%nat (o + (w + i))%nat) * B (o + (w + i))%nat j)%F) by (intros r _; rewrite (Nat.add_assoc o w r); reflexivity).
  set (X := sum _ _) in *. clearbody X. transitivity (B (o + p)%nat j + X + - X)%F; [ring|]. rewrite E. ring.
Qed.
Lemma back_diag p q : p < w -> q < w -> B (o + p)%nat (o + q)%nat = (T p q + - (1) * sum (n - (o + w)) (fun r => B (o + p)%nat (o + w + r)%nat * wlow o w T (o + w + r) q))%F.
Proof.
  intros Hp Hq. pose proof (two_row _ _ _ _ _ HC HT p q ltac:(lia) Hq) as E. cbv beta in E.
  change (sum w (fun q0 => idf p q0 * T q0 q)%F) with (mmul w idf T p q) in E. rewrite (mmul_idl L w T p q Hp) in E.
  unfold wlow. rewrite (sum_ext _ (fun r => B (o + p)%nat (o + w + r)%nat * sum w (fun q0 => sc n o F (o + w + r)%nat (o + q0)%nat * T q0 q))%F
    (fun j => B (o + p)%nat (o + (w + j))%nat * sum w (fun q0 => sc n o F (o + (w + j))%nat (o + q0)%nat * T q0 q))%F) by (intros r _; rewrite (Nat.add_assoc o w r); reflexivity).
  set (X := sum _ _) in *. clearbody X. rewrite <- E. ring.
Qed.
End Inv.
End Step.
End Alg.

(** A regular matrix has an inverse: it is found by the inversion of a dense matrix. *)
Section Exists.
Context {K : fops} (L : field_laws K) (O : qops K) (H : qlaws O) (HZ : exact_zero O).
Add Ring KringHinvX : (rl_ring K (fl_ring K L)).
Lemma no_pert n (f E : nat -> nat -> K) : (forall j, j < n -> tiny O (dot n (fun i => E i j) (fun i => E i j)) = true) -> forall i j, i < n -> j < n -> (f i j - E i j)%F = f i j.
Proof. intros HE i j Hi Hj. rewrite (HZ n (fun i => E i j) (HE j Hj) i Hi). ring. Qed.
Lemma reg_ext n (f g : nat -> nat -> K) : regular n f -> (forall i j, i < n -> j < n -> g i j = f i j) -> regular n g.
Proof. intros HR HE v Hv. apply HR. intros i Hi. rewrite <- (Hv i Hi). apply sum_ext. intros j Hj. rewrite HE by assumption. reflexivity. Qed.
Lemma inverse_exists n (f : nat -> nat -> K) : regular n f -> exists B, inverse n f B.
Proof.
  intros HR. set (A := Mat 0 0 n n n true). set (m := Mem (fun a => Val (f (snd a mod n) (snd a / n))) 1).
  assert (W : wp TT TT (qrinvert_amatrix O A) m (fun _ _ => exists B, inverse n f B)).
  { eapply (wp_qrinvert L O H TT TT A f m); [reflexivity|unfold mwf; cbn; lia| |cbn; lia|intros ? _; exact Logic.I| |].
    - intros i j Hi Hj. cbn in Hi, Hj. unfold get, ma, A, m. cbn. rewrite ?(Nat.mul_comm n j), (proj1 (divp n i j Hi)), (proj2 (divp n i j Hi)). reflexivity.
    - intros E HE. cbn [mrows A] in *. eapply reg_ext; [exact HR|]. apply no_pert. exact HE.
    - intros G0 E m' _ HE HG _. cbn [mrows A] in *. exists G0. assert (HG' : forall i j, i < n -> j < n -> mmul n f G0 i j = idf i j).
      { intros i j Hi Hj. rewrite <- (HG i j Hi Hj). apply sum_ext. intros k Hk. rewrite (no_pert n f E HE) by assumption. reflexivity. }
      intros i j Hi Hj. split; [apply HG'; assumption|]. eapply (inv_both L); [exact HR|exact HG'|exact Hi|exact Hj]. }
  apply wp_ends in W. destruct W as (r & m' & _ & HF). exact HF.
Qed.
End Exists.
