(** * Householder reflections: linear algebra *)
From Coq Require Import Arith NArith Lia List Bool Ring Field.
From Verif Require Import Fld Prog View Spec Loop Chol CholSpec CholP2 CholP5 LrP LrP2 Qr QrSpec.

Section QRP.
Context {K : fops} (L : field_laws K).
Notation RL := (fl_ring K L).
Lemma K_field : field_theory (@f0 K) f1 fadd fmul fsub fopp fdiv finv eq.
Proof.
  constructor; [exact (rl_ring K RL)|exact (fl_1_neq_0 K L)|reflexivity|exact (fl_inv K L)].
Qed.
Add Ring KringQ : (rl_ring K (fl_ring K L)).
Add Field KfieldQ : K_field.
Implicit Types (A B C Q F G f E : nat -> nat -> K) (t x y v w : nat -> K).

Lemma mmul_ext n A A' B B' i j :
  (forall k, k < n -> A i k = A' i k) -> (forall k, k < n -> B k j = B' k j) -> mmul n A B i j = mmul n A' B' i j.
Proof. intros H1 H2. apply sum_ext. intros k Hk. rewrite H1, H2 by exact Hk. reflexivity. Qed.
Lemma mmul_assoc n A B C i j : mmul n (mmul n A B) C i j = mmul n A (mmul n B C) i j.
Proof. exact (mvec_mmul L n A B (fun k => C k j) i). Qed.
Lemma mmul_idl n A i j : i < n -> mmul n idf A i j = A i j.
Proof.
  intros Hi. unfold mmul. rewrite (sum_single RL n i); [unfold idf; rewrite Nat.eqb_refl; ring|exact Hi|].
  intros k Hk Hn. unfold idf. destruct (Nat.eqb_spec i k); [congruence|ring].
Qed.
Lemma mmul_idr n A i j : j < n -> mmul n A idf i j = A i j.
Proof.
  intros Hj. unfold mmul. rewrite (sum_single RL n j); [unfold idf; rewrite Nat.eqb_refl; ring|exact Hj|].
  intros k Hk Hn. unfold idf. destruct (Nat.eqb_spec k j); [congruence|ring].
Qed.
Lemma mvec_id n y i : i < n -> mvec n idf y i = y i.
Proof. intros Hi. exact (mmul_idl n (fun k _ => y k) i 0 Hi). Qed.

Lemma rmat_vec n F t k y i : i < n ->
  mvec n (rmat F t k) y i = (y i - t k * dot n (rvec F k) y * rvec F k i)%F.
Proof.
  intros Hi. unfold mvec.
  rewrite (sum_ext n _ (fun j => idf i j * y j - t k * rvec F k i * (fconj (rvec F k j) * y j))%F).
  2:{ intros j Hj. unfold rmat. ring. }
  rewrite (sum_sub RL), (sum_mul_l RL).
  change (sum n (fun j => idf i j * y j)%F) with (mvec n idf y i). rewrite mvec_id by exact Hi.
  unfold dot. ring.
Qed.
Lemma rmat_mmul n F t k G i j : i < n ->
  mmul n (rmat F t k) G i j = (G i j - t k * dot n (rvec F k) (fun l => G l j) * rvec F k i)%F.
Proof. intros Hi. exact (rmat_vec n F t k (fun l => G l j) i Hi). Qed.

Lemma idf_sym i j : @idf K i j = idf j i.
Proof. unfold idf. rewrite Nat.eqb_sym. reflexivity. Qed.
Lemma idf_conj i j : fconj (@idf K i j) = idf i j.
Proof. unfold idf. destruct (i =? j); [apply (fconj_1 RL)|apply (fconj_0 RL)]. Qed.

Lemma rmat_tr F t k i j : tr true (rmat F t k) i j = rmat F (fun k => fconj (t k)) k i j.
Proof.
  cbn [tr]. unfold rmat. rewrite (fconj_sub RL), !(rl_conj_mul K RL), (rl_conj_conj K RL), idf_conj, (idf_sym j i). ring.
Qed.

(** Scaling factors that turn the matrix into a reflection. *)
Definition okr (n : nat) F t (k : nat) : Prop :=
  fconj (t k) = t k /\ (t k * (t k * dot n (rvec F k) (rvec F k)) = t k + t k)%F.

Lemma rmat_herm n F t k i j : okr n F t k -> tr true (rmat F t k) i j = rmat F t k i j.
Proof. intros [H _]. rewrite rmat_tr. unfold rmat. rewrite H. reflexivity. Qed.

Lemma rmat_invol n F t k i j : okr n F t k -> i < n -> j < n -> mmul n (rmat F t k) (rmat F t k) i j = idf i j.
Proof.
  intros [_ H] Hi Hj. rewrite rmat_mmul by exact Hi.
  assert (E : dot n (rvec F k) (fun l => rmat F t k l j) =
    (fconj (rvec F k j) - dot n (rvec F k) (rvec F k) * t k * fconj (rvec F k j))%F).
  { unfold dot. rewrite (sum_ext n _ (fun l => fconj (rvec F k l) * idf l j
      - (fconj (rvec F k l) * rvec F k l) * (t k * fconj (rvec F k j)))%F).
    2:{ intros l Hl. unfold rmat. ring. }
    rewrite (sum_sub RL), (sum_mul_r RL), (sum_single RL n j).
    - unfold idf. rewrite Nat.eqb_refl. ring.
    - exact Hj.
    - intros l Hl Hn. unfold idf. destruct (Nat.eqb_spec l j); [congruence|ring]. }
  rewrite E. unfold rmat.
  transitivity (idf i j - rvec F k i * fconj (rvec F k j) *
      ((t k + t k) - t k * (t k * dot n (rvec F k) (rvec F k))))%F; [ring|]. rewrite H. ring.
Qed.

Lemma rmat_unitary n F t k : okr n F t k -> unitary n (rmat F t k).
Proof.
  intros H i j Hi Hj. split.
  - rewrite (mmul_ext n _ (rmat F t k) _ (rmat F t k)); [apply rmat_invol; assumption| |reflexivity].
    intros l Hl. apply (rmat_herm n). exact H.
  - rewrite (mmul_ext n _ (rmat F t k) _ (rmat F t k)); [apply rmat_invol; assumption|reflexivity|].
    intros l Hl. apply (rmat_herm n). exact H.
Qed.

Lemma unitary_id n : unitary n (@idf K).
Proof.
  intros i j Hi Hj. split.
  - rewrite mmul_idr by exact Hj. cbn [tr]. rewrite idf_conj. apply idf_sym.
  - rewrite mmul_idl by exact Hi. cbn [tr]. rewrite idf_conj. apply idf_sym.
Qed.

Lemma unitary_mul n A B : unitary n A -> unitary n B -> unitary n (mmul n A B).
Proof.
  intros HA HB i j Hi Hj. split.
  - rewrite (mmul_ext n _ (mmul n (tr true B) (tr true A)) _ (mmul n A B)); [|intros l _; apply (tr_mmul L)|reflexivity].
    rewrite mmul_assoc. rewrite (mmul_ext n _ (tr true B) _ B); [apply HB; assumption|reflexivity|].
    intros l Hl. rewrite <- mmul_assoc.
    rewrite (mmul_ext n _ idf _ B); [apply mmul_idl, Hl| |reflexivity]. intros k Hk. apply HA; assumption.
  - rewrite (mmul_ext n _ (mmul n A B) _ (mmul n (tr true B) (tr true A))); [|reflexivity|intros l _; apply (tr_mmul L)].
    rewrite mmul_assoc. rewrite (mmul_ext n _ A _ (tr true A)); [apply HA; assumption|reflexivity|].
    intros l Hl. rewrite <- mmul_assoc.
    rewrite (mmul_ext n _ idf _ (tr true A)); [apply mmul_idl, Hl| |reflexivity]. intros k Hk. apply HB; assumption.
Qed.

Lemma qmat_unitary n F t r : (forall k, k < r -> okr n F t k) -> unitary n (qmat n F t r).
Proof.
  induction r as [|r IH]; intros H; cbn [qmat]; [apply unitary_id|].
  apply unitary_mul; [apply IH; intros; apply H; lia|]. apply rmat_unitary, H. lia.
Qed.

Lemma dot_mvec n A x y : dot n (mvec n A x) y = dot n x (mvec n (tr true A) y).
Proof.
  unfold dot, mvec. cbn [tr].
  rewrite (sum_ext n _ (fun i => sum n (fun j => fconj (x j) * (fconj (A i j) * y i)))%F).
  2:{ intros i Hi. rewrite (sum_conj RL), <- (sum_mul_r RL). apply sum_ext. intros j Hj. rewrite (rl_conj_mul K RL). ring. }
  rewrite (sum_swap RL). apply sum_ext. intros j Hj. rewrite (sum_mul_l RL). reflexivity.
Qed.
Lemma dot_ext' n x x' y y' : (forall i, i < n -> x i = x' i) -> (forall i, i < n -> y i = y' i) -> dot n x y = dot n x' y'.
Proof. intros H1 H2. apply sum_ext. intros i Hi. rewrite H1, H2 by exact Hi. reflexivity. Qed.

Lemma unitary_dot n Q x y : unitary n Q -> dot n (mvec n Q x) (mvec n Q y) = dot n x y.
Proof.
  intros H. rewrite dot_mvec. apply dot_ext'; [reflexivity|]. intros i Hi.
  rewrite <- (mvec_mmul L). rewrite (mvec_ext n _ idf _ y); [apply mvec_id, Hi| |reflexivity].
  intros j Hj. apply H; assumption.
Qed.

Lemma rmat_ext n F F' t t' k i j : t k = t' k -> (forall i, k < i -> i < n -> F i k = F' i k) ->
  i < n -> j < n -> rmat F t k i j = rmat F' t' k i j.
Proof.
  intros Ht HF Hi Hj. unfold rmat. rewrite Ht.
  assert (E : forall i, i < n -> rvec F k i = rvec F' k i).
  { intros l Hl. unfold rvec. destruct (Nat.ltb_spec l k); [reflexivity|]. destruct (Nat.eqb_spec l k); [reflexivity|]. apply HF; lia. }
  rewrite !E by assumption. reflexivity.
Qed.

Lemma qmat_ext n F F' t t' r : (forall k, k < r -> t k = t' k) ->
  (forall k i, k < r -> k < i -> i < n -> F i k = F' i k) ->
  forall i j, i < n -> j < n -> qmat n F t r i j = qmat n F' t' r i j.
Proof.
  induction r as [|r IH]; intros Ht HF i j Hi Hj; cbn [qmat]; [reflexivity|].
  apply mmul_ext.
  - intros k Hk. apply IH; auto.
  - intros k Hk. apply rmat_ext with (n := n); auto.
Qed.

Lemma rvec_ext n F F' k i : (forall i, k < i -> i < n -> F i k = F' i k) -> i < n -> rvec F k i = rvec F' k i.
Proof.
  intros HF Hl. unfold rvec. destruct (Nat.ltb_spec i k); [reflexivity|]. destruct (Nat.eqb_spec i k); [reflexivity|]. apply HF; lia.
Qed.

Lemma okr_ext n F F' t t' k : t k = t' k -> (forall i, k < i -> i < n -> F i k = F' i k) -> okr n F t k -> okr n F' t' k.
Proof.
  intros Ht HF [H1 H2]. unfold okr. rewrite <- Ht. split; [exact H1|].
  rewrite (dot_ext' n _ (rvec F k) _ (rvec F k)); [exact H2| |]; intros i Hi; symmetry; apply rvec_ext with (n := n); auto.
Qed.

(** ** The choice of the reflection *)
Context (O : qops K) (H : qlaws O).
Notation RW := (ql_r O H).

(** Sums of squares. *)
Definition ssq (a : K) : Prop := exists n x, a = dot n x x.

Lemma ssq_pos a : ssq a -> nonpos O a = false \/ a = f0.
Proof.
  intros [n [x ->]]. destruct (nonpos O (dot n x x)) eqn:E; [|left; reflexivity]. right.
  apply (sum_0 RL). intros i Hi. rewrite (rw_sumsq O RW n x E i Hi). ring.
Qed.
Lemma ssq_real a : ssq a -> fconj a = a.
Proof.
  intros [n [x ->]]. unfold dot. rewrite (sum_conj RL). apply sum_ext. intros i Hi.
  rewrite (rl_conj_mul K RL), (rl_conj_conj K RL). ring.
Qed.
Lemma ssq_sqrt a : ssq a -> (rsqrt O a * rsqrt O a = a)%F /\ fconj (rsqrt O a) = rsqrt O a.
Proof.
  intros Ha. destruct (ssq_pos a Ha) as [P| ->].
  - destruct (rw_sqrt O RW a (ssq_real a Ha) P) as [E1 [E2 _]]. auto.
  - rewrite (ql_sqrt0 O H). split; [ring|apply (fconj_0 RL)].
Qed.
Lemma ssq_sqrt_ssq a : ssq a -> ssq (rsqrt O a).
Proof.
  intros Ha. destruct (ssq_pos a Ha) as [P| ->].
  - destruct (rw_sqrt O RW a (ssq_real a Ha) P) as [E1 [E2 E3]].
    destruct (rw_sqrt O RW _ E2 E3) as [E4 [E5 _]].
    exists 1, (fun _ => rsqrt O (rsqrt O a)). unfold dot. cbn [sum]. rewrite E5, E4. ring.
  - rewrite (ql_sqrt0 O H). exists 0, (fun _ => f0). reflexivity.
Qed.
Lemma ssq_add a b : ssq a -> ssq b -> ssq (a + b)%F.
Proof.
  intros [n [x ->]] [m [y ->]]. exists (n + m), (fun i => if i <? n then x i else y (i - n)).
  unfold dot. rewrite (sum_app RL). f_equal; apply sum_ext; intros i Hi.
  - destruct (Nat.ltb_spec i n); [reflexivity|lia].
  - destruct (Nat.ltb_spec (n + i) n); [lia|]. replace (n + i - n) with i by lia. reflexivity.
Qed.
Lemma ssq_abssqr (a : K) : ssq (abssqr a).
Proof. exists 1, (fun _ => a). unfold dot, abssqr. cbn [sum]. ring. Qed.
Lemma ssq_0l a b : ssq a -> ssq b -> (a + b)%F = f0 -> a = f0.
Proof.
  intros [n [x ->]] [m [y ->]] E. apply (sum_0 RL). intros i Hi.
  enough (Z : x i = f0) by (rewrite Z; ring).
  pose proof (rw_sumsq O RW (n + m) (fun i => if i <? n then x i else y (i - n))) as P.
  assert (E' : dot (n + m) (fun i => if i <? n then x i else y (i - n)) (fun i => if i <? n then x i else y (i - n)) = f0).
  { rewrite <- E. unfold dot. rewrite (sum_app RL). f_equal; apply sum_ext; intros l Hl.
    - destruct (Nat.ltb_spec l n); [reflexivity|lia].
    - destruct (Nat.ltb_spec (n + l) n); [lia|]. replace (n + l - n) with l by lia. reflexivity. }
  rewrite E' in P. specialize (P (rw_0 O RW) i ltac:(lia)). cbv beta in P.
  destruct (Nat.ltb_spec i n); [exact P|lia].
Qed.

(** The formulas of the code: [d] is the diagonal entry, [T] the sum of the squares below. *)
Lemma house (d T : K) : ssq T -> (abssqr d + T)%F <> f0 ->
  let n2 := (abssqr d + T)%F in
  let N := rsqrt O n2 in
  let p := (fabs O d + N)%F in
  let beta := (f1 / (n2 + fabs O d * N) * (p * p))%F in
  let gamma := (fconj (sgn1 O d) / p)%F in
  fconj beta = beta /\
  (beta * (f1 + fconj gamma * gamma * T) = f1 + f1)%F /\
  (beta * (d + fconj gamma * T) = sgn1 O d * p)%F /\
  (d - sgn1 O d * p = fopp (sgn1 O d) * N)%F /\
  (sgn1 O d * p * gamma = f1)%F.
Proof.
  intros HT Hn0 n2 N p beta gamma.
  assert (Hn2 : ssq n2) by (apply ssq_add; [apply ssq_abssqr|exact HT]).
  destruct (ssq_sqrt n2 Hn2) as [EN CN]. fold N in EN, CN.
  destruct (ssq_sqrt _ (ssq_abssqr d)) as [ED CD]. fold (fabs O d) in ED, CD.
  set (D := fabs O d) in *. set (s := sgn1 O d).
  assert (Es : (s * D = d)%F) by exact (ql_sgn O H d).
  assert (Eu : (fconj s * s = f1)%F) by exact (ql_unit O H d).
  assert (NN : N <> f0). { intros E. apply Hn0. change (n2 = f0). rewrite <- EN, E. ring. }
  assert (NP : p <> f0).
  { intros E. apply NN. apply (ssq_0l N D).
    - apply ssq_sqrt_ssq, Hn2.
    - apply ssq_sqrt_ssq, ssq_abssqr.
    - rewrite <- E. unfold p. ring. }
  assert (ET : T = (N * N - D * D)%F). { rewrite EN, ED. unfold n2. ring. }
  assert (EX : (n2 + D * N = N * p)%F). { rewrite <- EN. unfold p. ring. }
  assert (NX : (N * p)%F <> f0).
  { intros E. apply NP. transitivity (finv N * (N * p))%F; [|rewrite E; ring].
    transitivity (finv N * N * p)%F; [|ring]. rewrite (fl_inv K L) by exact NN. ring. }
  assert (EB : beta = (p / N)%F).
  { unfold beta. rewrite EX. field. split; assumption. }
  assert (Cp : fconj p = p). { unfold p. rewrite (rl_conj_add K RL), CD, CN. reflexivity. }
  assert (Cinv : forall a : K, a <> f0 -> fconj a = a -> fconj (finv a) = finv a).
  { intros a Ha Ca. transitivity (finv a * (a * fconj (finv a)))%F.
    - transitivity ((finv a * a) * fconj (finv a))%F; [rewrite (fl_inv K L) by exact Ha; ring|ring].
    - rewrite <- Ca at 2. rewrite <- (rl_conj_mul K RL).
      replace (a * finv a)%F with (finv a * a)%F by ring. rewrite (fl_inv K L) by exact Ha. rewrite (fconj_1 RL). ring. }
  assert (CG : fconj gamma = (s / p)%F).
  { unfold gamma, fdiv. rewrite (rl_conj_mul K RL), (rl_conj_conj K RL), (Cinv p NP Cp). reflexivity. }
  split; [|split; [|split; [|split]]].
  - rewrite EB. unfold fdiv. rewrite (rl_conj_mul K RL), Cp, (Cinv N NN CN). reflexivity.
  - rewrite EB, CG, ET. unfold gamma. fold s. clear - L NN NP Eu p N D s.
    transitivity (p / N * (f1 + (fconj s * s) * (N * N - D * D) / (p * p)))%F; [field; split; assumption|].
    rewrite Eu.
    transitivity (p / N + (N * N - D * D) / (N * p))%F; [field; split; assumption|].
    assert (Ep : (N * N - D * D = p * (N - D))%F) by (unfold p; ring). rewrite Ep.
    transitivity ((p + N - D) / N)%F; [field; split; assumption|].
    replace (p + N - D)%F with (N * (f1 + f1))%F by (unfold p; ring). field. exact NN.
  - rewrite EB, CG, ET. rewrite <- Es at 1.
    transitivity (s * (p / N * (D + (N * N - D * D) / p)))%F; [field; split; assumption|].
    assert (Ep : (N * N - D * D = p * (N - D))%F) by (unfold p; ring). rewrite Ep.
    field; split; assumption.
  - rewrite <- Es at 1. unfold p. ring.
  - unfold gamma. transitivity (fconj s * s)%F; [fold s; field; exact NP|exact Eu].
Qed.
End QRP.
