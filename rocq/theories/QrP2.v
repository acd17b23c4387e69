(** * The steps of the QR decomposition on matrices *)
From Coq Require Import Arith NArith Lia List Bool Ring Field.
From Verif Require Import Fld Prog View Spec Loop Chol CholSpec CholP2 CholP5 LrP LrP2 Qr QrSpec QrP.

Section QRP2.
Context {K : fops} (L : field_laws K) (O : qops K) (H : qlaws O).
Notation RL := (fl_ring K L).
Add Ring KringQ2 : (rl_ring K (fl_ring K L)).
Implicit Types (A B C Q F G f E : nat -> nat -> K) (t x y v w : nat -> K).

Lemma dot_rvec n G k y : k < n ->
  dot n (rvec G k) y = (y k + sum (n - (k + 1)) (fun i => fconj (G (k + 1 + i)%nat k) * y (k + 1 + i)%nat))%F.
Proof.
  intros Hk. unfold dot. replace n with (k + 1 + (n - (k + 1))) at 1 by lia. rewrite !(sum_app RL). cbn [sum].
  rewrite (sum_0 RL k).
  2:{ intros i Hi. unfold rvec. destruct (Nat.ltb_spec i k); [|lia]. rewrite (fconj_0 RL). ring. }
  f_equal.
  - unfold rvec. rewrite Nat.add_0_r. destruct (Nat.ltb_spec k k); [lia|]. rewrite Nat.eqb_refl, (fconj_1 RL). ring.
  - apply sum_ext. intros i Hi. unfold rvec. destruct (Nat.ltb_spec (k + 1 + i) k); [lia|].
    destruct (Nat.eqb_spec (k + 1 + i) k); [lia|reflexivity].
Qed.

(** The squared norm of column [j] from row [k] on. *)
Definition csum (n k : nat) F (j : nat) : K := sum (n - k) (fun i => abssqr (F (k + i)%nat j)).
Lemma csum_S n k F j : k < n -> csum n k F j = (abssqr (F k j) + csum n (k + 1) F j)%F.
Proof.
  intros Hk. unfold csum. replace (n - k) with (S (n - (k + 1))) by lia.
  rewrite (sum_head RL). rewrite Nat.add_0_r. f_equal. apply sum_ext. intros i _. f_equal. f_equal. lia.
Qed.
Lemma csum_ssq n k F j : ssq (csum n k F j).
Proof. exists (n - k), (fun i => F (k + i) j). reflexivity. Qed.

(** The matrix after [k] steps: zeros below the diagonal in the first [k] columns. *)
Definition Rk F (k l j : nat) : K := if (j <? k) && (j <? l) then f0 else F l j.

Definition qrinv (small : K -> bool) (n c k : nat) f F t E : Prop :=
  (forall i j, i < n -> j < c -> f i j = (mmul n (qmat n F t k) (Rk F k) i j + E i j)%F) /\
  (forall j, j < k -> okr n F t j) /\
  (forall i j, i < n -> k <= j -> E i j = f0) /\
  (forall j, j < k -> (forall i, i < n -> E i j = f0) \/
     small (abssqr (F j j) + sum n (fun i => abssqr (E i j)))%F = true).

Lemma qrinv_0 small n c f t : qrinv small n c 0 f f t (fun _ _ => f0).
Proof.
  split; [|split; [|split]].
  - intros i j Hi Hj. cbn [qmat]. rewrite (mmul_ext n idf idf (Rk f 0) f); [|reflexivity|reflexivity].
    rewrite (mmul_idl L) by exact Hi. ring.
  - intros j Hj. lia.
  - reflexivity.
  - intros j Hj. lia.
Qed.

Lemma qmat_zero n F t k i j : t k = f0 -> j < n -> qmat n F t (S k) i j = qmat n F t k i j.
Proof.
  intros Ht Hj. cbn [qmat]. rewrite (mmul_ext n _ (qmat n F t k) _ idf); [apply (mmul_idr L), Hj|reflexivity|].
  intros l Hl. unfold rmat. rewrite Ht. ring.
Qed.

Lemma qrinv_tiny small n c k f F t t' E : qrinv small n c k f F t E -> k < n -> k < c ->
  small (csum n k F k) = true -> t' k = f0 -> (forall j, j < k -> t' j = t j) ->
  exists E', qrinv small n c (S k) f F t' E'.
Proof.
  intros [H1 [H2 [H3 H4]]] Hn Hc Hs Hk0 Ht.
  set (w := fun l => if l <=? k then f0 else F l k).
  exists (fun i j => if j =? k then mvec n (qmat n F t k) w i else E i j).
  assert (EQ : forall i j, i < n -> j < n -> qmat n F t' (S k) i j = qmat n F t k i j).
  { intros i j Hi Hj. rewrite qmat_zero by assumption. apply qmat_ext; auto. }
  assert (U : unitary n (qmat n F t k)) by (apply (qmat_unitary L); exact H2).
  split; [|split; [|split]].
  - intros i j Hi Hj. rewrite H1 by assumption.
    rewrite (mmul_ext n (qmat n F t' (S k)) (qmat n F t k) (Rk F (S k)) (Rk F (S k))); [|intros; apply EQ; assumption|reflexivity].
    destruct (Nat.eqb_spec j k) as [->|Hne].
    + rewrite (H3 i k) by lia. unfold mmul, mvec. rewrite <- (sum_add RL).
      transitivity (sum n (fun l => qmat n F t k i l * Rk F k l k)%F); [ring|]. apply sum_ext. intros l Hl.
      unfold Rk, w. bsplit; try lia; ring.
    + f_equal. apply mmul_ext; [reflexivity|]. intros l Hl. unfold Rk. bsplit; try reflexivity; lia.
  - intros j Hj. destruct (Nat.eq_dec j k) as [->|Hne].
    + unfold okr. rewrite Hk0. split; [apply (fconj_0 RL)|ring].
    + eapply (okr_ext) with (F := F) (t := t); [rewrite Ht by lia; reflexivity|reflexivity|apply H2; lia].
  - intros i j Hi Hj. destruct (Nat.eqb_spec j k); [lia|]. apply H3; lia.
  - intros j Hj. destruct (Nat.eqb_spec j k) as [->|Hne]; [right|apply H4; lia].
    rewrite <- Hs. f_equal. rewrite (csum_S n k F k) by exact Hn. f_equal.
    change (sum n (fun i => abssqr (mvec n (qmat n F t k) w i))) with
      (dot n (mvec n (qmat n F t k) w) (mvec n (qmat n F t k) w)).
    rewrite (unitary_dot L) by exact U. unfold dot, csum.
    replace n with (k + 1 + (n - (k + 1))) at 1 by lia. rewrite (sum_app RL), (sum_0 RL (k + 1)).
    + transitivity (sum (n - (k + 1)) (fun i => abssqr (w (k + 1 + i)%nat))); [unfold abssqr; ring|].
      apply sum_ext. intros i Hi. unfold w. destruct (Nat.leb_spec (k + 1 + i) k); [lia|reflexivity].
    + intros i Hi. unfold w. destruct (Nat.leb_spec i k); [ring|lia].
Qed.

Definition step_alpha F k (n2 : K) : K := (fopp (sgn1 O (F k k)) * rsqrt O n2)%F.
Definition step_beta F k (n2 : K) : K :=
  (f1 / (n2 + fabs O (F k k) * rsqrt O n2) * ((fabs O (F k k) + rsqrt O n2) * (fabs O (F k k) + rsqrt O n2)))%F.
Definition step_gamma F k (n2 : K) : K := (fconj (sgn1 O (F k k)) / (fabs O (F k k) + rsqrt O n2))%F.

(** [G] is the result of the step. *)
Definition qrstep (n c k : nat) F (n2 : K) G : Prop :=
  (forall i j, i < n -> j < k -> G i j = F i j) /\
  (forall i, i < k -> G i k = F i k) /\
  G k k = step_alpha F k n2 /\
  (forall i, k < i -> i < n -> G i k = (F i k * step_gamma F k n2)%F) /\
  (forall i j, i < n -> k < j -> j < c ->
     G i j = (F i j - step_beta F k n2 * dot n (rvec G k) (fun l => F l j) * rvec G k i)%F).

(** The step applies a reflection to the remaining matrix. *)
Lemma qrstep_refl n c k F G t' : k < n -> k < c ->
  csum n k F k <> f0 -> qrstep n c k F (csum n k F k) G -> t' k = step_beta F k (csum n k F k) ->
  okr n G t' k /\
  (forall l j, l < n -> j < c -> mmul n (rmat G t' k) (Rk F k) l j = Rk G (S k) l j).
Proof.
  intros Hn Hc Hs [G1 [G2 [G3 [G4 G5]]]] Hk0.
  rewrite (csum_S n k F k Hn) in *. set (T := csum n (k + 1) F k) in *.
  set (d := F k k) in *.
  destruct (house L O H d T (csum_ssq n (k + 1) F k) Hs) as [A1 [A2 [A3 [A4 A5]]]].
  set (n2 := (abssqr d + T)%F) in *.
  change (rsqrt (qr O) n2) with (rsqrt O n2) in *.
  change (f1 / (n2 + fabs O d * rsqrt O n2) * ((fabs O d + rsqrt O n2) * (fabs O d + rsqrt O n2)))%F with (step_beta F k n2) in *.
  change (fconj (sgn1 O d) / (fabs O d + rsqrt O n2))%F with (step_gamma F k n2) in *.
  set (beta := step_beta F k n2) in *. set (gamma := step_gamma F k n2) in *.
  set (p := (fabs O d + rsqrt O n2)%F) in *. set (s := sgn1 O d) in *.
  assert (Dd : dot n (rvec G k) (fun l => F l k) = (d + fconj gamma * T)%F).
  { rewrite dot_rvec by exact Hn. fold d. f_equal. unfold T, csum. rewrite <- (sum_mul_l RL).
    apply sum_ext. intros i Hi. rewrite G4 by lia. unfold abssqr. rewrite (rl_conj_mul K RL). ring. }
  assert (Dv : dot n (rvec G k) (rvec G k) = (f1 + fconj gamma * gamma * T)%F).
  { rewrite dot_rvec by exact Hn. f_equal.
    - unfold rvec. destruct (Nat.ltb_spec k k); [lia|]. rewrite Nat.eqb_refl. reflexivity.
    - unfold T, csum. rewrite <- (sum_mul_l RL). apply sum_ext. intros i Hi.
      unfold rvec. destruct (Nat.ltb_spec (k + 1 + i) k); [lia|]. destruct (Nat.eqb_spec (k + 1 + i) k); [lia|].
      rewrite G4 by lia. unfold abssqr. rewrite (rl_conj_mul K RL). ring. }
  assert (OK : okr n G t' k).
  { split; rewrite Hk0; [exact A1|]. rewrite Dv, A2. ring. }
  split; [exact OK|].
  intros l j Hl Hj. rewrite (rmat_mmul L) by exact Hl. rewrite Hk0.
    destruct (lt_eq_lt_dec j k) as [[Hjk|Hjk]|Hjk].
    - assert (D0 : dot n (rvec G k) (fun l => Rk F k l j) = f0).
      { apply (sum_0 RL). intros i Hi. unfold rvec, Rk. bsplit; try lia; rewrite ?(fconj_0 RL); ring. }
      rewrite D0. unfold Rk. bsplit; try lia; try ring. rewrite G1 by lia. ring.
    - subst j. rewrite (dot_ext' n _ (rvec G k) _ (fun l => F l k)); [|reflexivity|intros i Hi; unfold Rk; bsplit; try lia; reflexivity].
      rewrite Dd, A3. unfold Rk. bsplit; try lia.
      + unfold rvec. bsplit; try lia. rewrite G4 by lia.
        transitivity (F l k * (f1 - s * p * gamma))%F; [ring|]. rewrite A5. ring.
      + unfold rvec. bsplit; try lia.
        * rewrite G2 by lia. ring.
        * replace l with k by lia. rewrite G3. unfold step_alpha. fold d s. rewrite <- A4. fold p. ring.
    - rewrite (dot_ext' n _ (rvec G k) _ (fun l => F l j)); [|reflexivity|intros i Hi; unfold Rk; bsplit; try lia; reflexivity].
      unfold Rk. bsplit; try lia. rewrite (G5 l j) by lia. reflexivity.
Qed.

Lemma qrinv_step small n c k f F G t t' E : qrinv small n c k f F t E -> k < n -> k < c ->
  csum n k F k <> f0 -> qrstep n c k F (csum n k F k) G ->
  t' k = step_beta F k (csum n k F k) -> (forall j, j < k -> t' j = t j) ->
  qrinv small n c (S k) f G t' E.
Proof.
  intros [H1 [H2 [H3 H4]]] Hn Hc Hs HG Hk0 Ht.
  destruct (qrstep_refl n c k F G t' Hn Hc Hs HG Hk0) as [OK HH]. destruct HG as [G1 _].
  assert (EQ : forall i j, i < n -> j < n -> qmat n G t' k i j = qmat n F t k i j).
  { intros i j Hi Hj. apply qmat_ext; auto. }
  split; [|split; [|split]].
  - intros i j Hi Hj. rewrite H1 by assumption. f_equal. cbn [qmat]. rewrite (mmul_assoc L).
    apply mmul_ext; [intros; symmetry; apply EQ; assumption|]. intros l Hl.
    rewrite (mmul_ext n _ (rmat G t' k) _ (mmul n (rmat G t' k) (Rk F k))); [|reflexivity|intros; symmetry; apply HH; assumption].
    rewrite <- (mmul_assoc L). rewrite (mmul_ext n _ idf _ (Rk F k)); [symmetry; apply (mmul_idl L), Hl| |reflexivity].
    intros q Hq. apply (rmat_invol L); assumption.
  - intros j Hj. destruct (Nat.eq_dec j k) as [->|Hne]; [exact OK|].
    eapply (okr_ext) with (F := F) (t := t); [rewrite Ht by lia; reflexivity| |apply H2; lia].
    intros i _ Hi. symmetry. apply G1; lia.
  - intros i j Hi Hj. apply H3; lia.
  - intros j Hj. destruct (Nat.eq_dec j k) as [->|Hne].
    + left. intros i Hi. apply H3; lia.
    + destruct (H4 j) as [E0|E0]; [lia|left; exact E0|right]. rewrite G1 by lia. exact E0.
Qed.

(** Exchanging two of the remaining columns. *)
Definition swapc (k q j : nat) : nat := if j =? k then q else if j =? q then k else j.
Lemma qrinv_swap small n c k q f F t E : qrinv small n c k f F t E -> k <= q -> q < c -> k < c ->
  qrinv small n c k (fun i j => f i (swapc k q j)) (fun i j => F i (swapc k q j)) t E.
Proof.
  intros [H1 [H2 [H3 H4]]] Hq Hqc Hkc.
  assert (Es : forall j, j < k -> swapc k q j = j).
  { intros j Hj. unfold swapc. destruct (Nat.eqb_spec j k); [lia|]. destruct (Nat.eqb_spec j q); [lia|reflexivity]. }
  assert (Ec : forall j, j < c -> swapc k q j < c).
  { intros j Hj. unfold swapc. destruct (Nat.eqb_spec j k); [lia|]. destruct (Nat.eqb_spec j q); lia. }
  split; [|split; [|split]].
  - intros i j Hi Hj. rewrite H1 by auto. f_equal.
    + unfold mmul. apply sum_ext. intros l Hl. f_equal.
      * apply qmat_ext; auto. intros p i' Hp _ _. rewrite Es by exact Hp. reflexivity.
      * unfold Rk, swapc. bsplit; try reflexivity; lia.
    + destruct (Nat.lt_ge_cases j k) as [Hj'|Hj']; [rewrite Es by exact Hj'; reflexivity|].
      rewrite !H3; try lia; [reflexivity|]. unfold swapc. destruct (Nat.eqb_spec j k); [lia|]. destruct (Nat.eqb_spec j q); lia.
  - intros j Hj. eapply okr_ext with (F := F) (t := t); [reflexivity| |apply H2, Hj].
    intros i _ _. rewrite Es by exact Hj. reflexivity.
  - exact H3.
  - intros j Hj. rewrite Es by exact Hj. apply H4, Hj.
Qed.
End QRP2.
