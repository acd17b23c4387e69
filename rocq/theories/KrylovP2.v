(** * Krylov methods: orthogonality and conjugacy *)
From Coq Require Import Arith Lia List Bool Ring Field.
From Verif Require Import Fld Prog View Spec LrP QrP KrylovSpec.

Section Math.
Context {K : fops} (L : field_laws K).
Notation RL := (fl_ring K L).
Add Ring KringK : (rl_ring K (fl_ring K L)).
Add Field KfieldK : (K_field L).
Implicit Types (u v w x y : nat -> K) (a c : K) (A : nat -> nat -> K).

Lemma dot_sub_r n u v w a : dot n u (fun i => v i - a * w i)%F = (dot n u v - a * dot n u w)%F.
Proof. unfold dot. rewrite <- (sum_mul_l RL), <- (sum_sub RL). apply sum_ext. intros i Hi. ring. Qed.
Lemma dot_sub_l n u v w a : dot n (fun i => v i - a * w i)%F u = (dot n v u - fconj a * dot n w u)%F.
Proof.
  unfold dot. rewrite <- (sum_mul_l RL), <- (sum_sub RL). apply sum_ext. intros i Hi.
  rewrite (fconj_sub RL), (rl_conj_mul _ RL). ring.
Qed.
Lemma dot_add_r n u v w a : dot n u (fun i => v i + a * w i)%F = (dot n u v + a * dot n u w)%F.
Proof. unfold dot. rewrite <- (sum_mul_l RL), <- (sum_add RL). apply sum_ext. intros i Hi. ring. Qed.
Lemma dot_add_l n u v w a : dot n (fun i => v i + a * w i)%F u = (dot n v u + fconj a * dot n w u)%F.
Proof.
  unfold dot. rewrite <- (sum_mul_l RL), <- (sum_add RL). apply sum_ext. intros i Hi.
  rewrite (rl_conj_add _ RL), (rl_conj_mul _ RL). ring.
Qed.
Lemma dot_swap n u v : dot n u v = fconj (dot n v u).
Proof. unfold dot. rewrite (sum_conj RL). apply sum_ext. intros i Hi. rewrite (rl_conj_mul _ RL), (rl_conj_conj _ RL). ring. Qed.
Lemma dot_0 n u v : (forall i, i < n -> u i = f0) -> dot n u v = f0.
Proof. intros H. apply (sum_0 RL). intros i Hi. rewrite H by exact Hi. rewrite (fconj_0 RL). ring. Qed.
Lemma dot_0r n u v : (forall i, i < n -> v i = f0) -> dot n u v = f0.
Proof. intros H. apply (sum_0 RL). intros i Hi. rewrite H by exact Hi. ring. Qed.

Lemma mvec_sub n A v w a i : mvec n A (fun j => v j - a * w j)%F i = (mvec n A v i - a * mvec n A w i)%F.
Proof. unfold mvec. rewrite <- (sum_mul_l RL), <- (sum_sub RL). apply sum_ext. intros j Hj. ring. Qed.
Lemma mvec_add n A v w a i : mvec n A (fun j => v j + a * w j)%F i = (mvec n A v i + a * mvec n A w i)%F.
Proof. unfold mvec. rewrite <- (sum_mul_l RL), <- (sum_add RL). apply sum_ext. intros j Hj. ring. Qed.

Lemma herm_dot n A u v : hermitian n A -> dot n (mvec n A u) v = dot n u (mvec n A v).
Proof.
  intros H. rewrite (dot_mvec L). apply dot_ext'; [reflexivity|]. intros i Hi.
  unfold mvec. apply sum_ext. intros j Hj. cbn [tr]. rewrite <- (H i j) by assumption. reflexivity.
Qed.

Lemma fmul_0 (a c : K) : (a * c)%F = f0 -> a <> f0 -> c = f0.
Proof. intros E N. transitivity (finv a * (a * c))%F; [field; exact N|]. rewrite E. ring. Qed.
Lemma fdiv_0 (a c : K) : a <> f0 -> c <> f0 -> (a / c)%F <> f0.
Proof. intros Ha Hc E. apply Ha. transitivity (a / c * c)%F; [field; exact Hc|]. rewrite E. ring. Qed.
Lemma fconj_n0 (a : K) : a <> f0 -> fconj a <> f0.
Proof. intros H E. apply H. rewrite <- (rl_conj_conj _ RL a), E. apply (fconj_0 RL). Qed.

(** ** More columns than rows: there is a nontrivial kernel *)
Definition skip (q j : nat) : nat := if j <? q then j else S j.
Lemma sum_skip n q (f : nat -> K) : q <= n -> sum (S n) f = (sum n (fun j => f (skip q j)) + f q)%F.
Proof.
  intros Hq. replace (S n) with (q + S (n - q)) by lia. rewrite (sum_app RL).
  replace n with (q + (n - q)) at 2 by lia. rewrite (sum_app RL), (sum_head RL).
  rewrite (sum_ext q (fun j => f (skip q j)) f).
  2:{ intros i Hi. unfold skip. destruct (Nat.ltb_spec i q); [reflexivity|lia]. }
  rewrite (sum_ext (n - q) (fun i => f (skip q (q + i))) (fun i => f (q + S i))).
  2:{ intros i Hi. unfold skip. destruct (Nat.ltb_spec (q + i) q); [lia|]. f_equal. lia. }
  rewrite Nat.add_0_r. ring.
Qed.
Lemma pivot_dec n (f : nat -> K) : (forall j, j < n -> f j = f0) \/ exists q, q < n /\ f q <> f0.
Proof.
  induction n as [|n [IH|(q & Hq & N)]]; [left; lia| |right; exists q; split; [lia|exact N]].
  destruct (feqb (f n) f0) eqn:E.
  - apply (fl_eqb _ L) in E. left. intros j Hj. destruct (Nat.eq_dec j n) as [->|]; [exact E|apply IH; lia].
  - right. exists n. split; [lia|]. intros C. apply (fl_eqb _ L) in C. congruence.
Qed.
Lemma kernel_exists n : forall M : nat -> nat -> K,
  exists z : nat -> K, (exists j, j < S n /\ z j <> f0) /\ forall i, i < n -> mvec (S n) M z i = f0.
Proof.
  induction n as [|n IH]; intros M.
  - exists (fun _ => f1). split; [exists 0; split; [lia|apply (fl_1_neq_0 _ L)]|lia].
  - destruct (pivot_dec (S (S n)) (M n)) as [H|(q & Hq & N)].
    + destruct (IH M) as (z & (j & Hj & Nz) & Hz).
      exists (fun i => if i <? S n then z i else f0). split.
      * exists j. split; [lia|]. destruct (Nat.ltb_spec j (S n)); [exact Nz|lia].
      * intros i Hi. unfold mvec in *. cbn [sum] in *. fold (sum (K:=K)).
        destruct (Nat.ltb_spec (S n) (S n)); [lia|]. destruct (Nat.ltb_spec n (S n)); [|lia].
        rewrite (sum_ext n _ (fun j => M i j * z j)%F) by (intros k Hk; destruct (Nat.ltb_spec k (S n)); [reflexivity|lia]).
        destruct (Nat.eq_dec i n) as [->|Ni].
        -- rewrite !H by lia. rewrite (sum_0 RL); [ring|]. intros k Hk. rewrite H by lia. ring.
        -- rewrite (Hz i) by lia. ring.
    + destruct (IH (fun i j => M i (skip q j) - M i q / M n q * M n (skip q j))%F) as (z & (j & Hj & Nz) & Hz).
      set (zq := (fopp (sum (S n) (fun j => M n (skip q j) * z j)%F) / M n q)%F).
      set (z' := fun k => if k =? q then zq else if k <? q then z k else z (k - 1)).
      assert (Hs : forall k, z' (skip q k) = z k).
      { intros k. unfold z', skip. destruct (Nat.ltb_spec k q).
        - destruct (Nat.eqb_spec k q); [lia|]. destruct (Nat.ltb_spec k q); [reflexivity|lia].
        - destruct (Nat.eqb_spec (S k) q); [lia|]. destruct (Nat.ltb_spec (S k) q); [lia|]. f_equal. lia. }
      assert (Hzq : z' q = zq) by (unfold z'; rewrite Nat.eqb_refl; reflexivity).
      exists z'. split.
      * exists (skip q j). split; [unfold skip; destruct (Nat.ltb_spec j q); lia|]. rewrite Hs. exact Nz.
      * intros i Hi. unfold mvec. rewrite (sum_skip (S n) q) by lia.
        rewrite (sum_ext (S n) _ (fun k => M i (skip q k) * z k)%F) by (intros k Hk; cbv beta; rewrite Hs; reflexivity).
        rewrite Hzq. unfold zq. destruct (Nat.eq_dec i n) as [->|Ni]; [field; exact N|].
        assert (E := Hz i ltac:(lia)). unfold mvec in E.
        rewrite (sum_ext (S n) _ (fun k => M i (skip q k) * z k - M i q / M n q * (M n (skip q k) * z k))%F) in E
          by (intros k Hk; ring).
        rewrite (sum_sub RL), (sum_mul_l RL) in E.
        match type of E with ?lhs = _ => transitivity lhs; [field; exact N|exact E] end.
Qed.

(** ** The sequences of a conjugate gradient method *)
Section CG.
Variable n : nat.
Variable A : nat -> nat -> K.
Hypothesis HA : hermitian n A.
Variables R P Q : nat -> nat -> K.
Definition gam k : K := dot n (P k) (mvec n A (P k)).
Definition lam k : K := (dot n (P k) (R k) / gam k)%F.
Definition muc k : K := (dot n (mvec n A (P k)) (Q (S k)) / gam k)%F.
Hypothesis H0 : forall i, i < n -> P 0 i = Q 0 i.
Hypothesis HR : forall k i, i < n -> R (S k) i = (R k i - lam k * mvec n A (P k) i)%F.
Hypothesis HP : forall k i, i < n -> P (S k) i = (Q (S k) i - muc k * P k i)%F.
Hypothesis HQ : forall i j, dot n (Q i) (R j) = dot n (R i) (Q j).

Lemma cg_qdot k v : dot n (Q (S k)) v = (dot n (P (S k)) v + fconj (muc k) * dot n (P k) v)%F.
Proof.
  rewrite (dot_ext' n (P (S k)) (fun i => Q (S k) i - muc k * P k i)%F v v) by (auto; apply HP).
  rewrite dot_sub_l. ring.
Qed.

Lemma cg_step k :
  (forall j, j <= k -> gam j <> f0 /\ dot n (Q j) (R j) <> f0) ->
  (forall i j, i < j -> j <= k -> dot n (P i) (R j) = f0 /\ dot n (P i) (mvec n A (P j)) = f0 /\ dot n (Q i) (R j) = f0) ->
  forall i, i < S k -> dot n (P i) (R (S k)) = f0 /\ dot n (P i) (mvec n A (P (S k))) = f0 /\ dot n (Q i) (R (S k)) = f0.
Proof.
  intros Hnz IH.
  assert (HPR : forall i, i <= k -> dot n (P i) (R (S k)) = f0).
  { intros i Hi. rewrite (dot_ext' n (P i) (P i) (R (S k)) (fun l => R k l - lam k * mvec n A (P k) l)%F) by (auto; apply HR).
    rewrite dot_sub_r. destruct (Nat.eq_dec i k) as [->|N].
    - unfold lam. fold (gam k). field. apply Hnz. lia.
    - destruct (IH i k ltac:(lia) (le_n k)) as (E1 & E2 & _). rewrite E1, E2. ring. }
  assert (HQR : forall i, i <= k -> dot n (Q i) (R (S k)) = f0).
  { intros [|i] Hi.
    - rewrite <- (HPR 0 Hi). apply dot_ext'; [intros; symmetry; auto|auto].
    - rewrite cg_qdot, !HPR by lia. ring. }
  intros i Hi. split; [apply HPR; lia|]. split; [|apply HQR; lia].
  rewrite <- (herm_dot _ _ _ _ HA).
  rewrite (dot_ext' n _ (mvec n A (P i)) _ (fun l => Q (S k) l - muc k * P k l)%F) by (auto; apply HP).
  rewrite dot_sub_r. destruct (Nat.eq_dec i k) as [->|N].
  - rewrite (herm_dot _ _ (P k) (P k) HA). fold (gam k). unfold muc. field. apply Hnz. lia.
  - rewrite (herm_dot _ _ (P i) (P k) HA). destruct (IH i k ltac:(lia) (le_n k)) as (_ & E2 & _). rewrite E2.
    assert (E : (fconj (lam i) * dot n (mvec n A (P i)) (Q (S k)))%F = f0).
    { transitivity (dot n (R i) (Q (S k)) - dot n (R (S i)) (Q (S k)))%F.
      - rewrite (dot_ext' n (R (S i)) (fun l => R i l - lam i * mvec n A (P i) l)%F (Q (S k)) (Q (S k))) by (auto; apply HR).
        rewrite dot_sub_l. ring.
      - rewrite <- !HQ, !HQR by lia. ring. }
    apply fmul_0 in E; [rewrite E; ring|]. apply fconj_n0. unfold lam.
    apply fdiv_0; [|apply Hnz; lia].
    destruct i as [|i].
    + rewrite (dot_ext' n (P 0) (Q 0) (R 0) (R 0)) by auto. apply Hnz. lia.
    + assert (Hd := cg_qdot i (R (S i))). destruct (IH i (S i) ltac:(lia) ltac:(lia)) as (E1 & _). rewrite E1 in Hd.
      intros C. apply (proj2 (Hnz (S i) ltac:(lia))). rewrite Hd, C. ring.
Qed.

(** As long as the method has not broken down, all search directions are conjugate, and all
    residuals are orthogonal to all previous search directions and to all previous
    (preconditioned) residuals. *)
Lemma cg_orth k : (forall j, j < k -> gam j <> f0 /\ dot n (Q j) (R j) <> f0) ->
  forall i j, i < j -> j <= k -> dot n (P i) (R j) = f0 /\ dot n (P i) (mvec n A (P j)) = f0 /\ dot n (Q i) (R j) = f0.
Proof.
  induction k as [|k IH]; intros Hnz; [lia|]. intros i j Hij Hj.
  assert (IH' := IH (fun j Hj => Hnz j (Nat.lt_lt_succ_r _ _ Hj))).
  destruct (Nat.eq_dec j (S k)) as [->|N]; [|apply IH'; lia].
  apply cg_step; [intros l Hl; apply Hnz; lia|exact IH'|exact Hij].
Qed.

(** [P k] has no smaller inner product with [R k] than [Q k]. *)
Lemma cg_pr k : (forall j, j < k -> gam j <> f0 /\ dot n (Q j) (R j) <> f0) -> dot n (P k) (R k) = dot n (Q k) (R k).
Proof.
  intros Hnz. destruct k as [|k]; [apply dot_ext'; auto|]. rewrite cg_qdot.
  destruct (cg_orth (S k) Hnz k (S k) ltac:(lia) (le_n _)) as (E & _). rewrite E. ring.
Qed.

(** For definite matrices the only breakdown is a zero residual, and it occurs after at most
    [n] steps. *)
Hypothesis dA : definite n A.
Hypothesis dQ : forall k, dot n (Q k) (R k) = f0 -> forall i, i < n -> R k i = f0.

Lemma cg_nobreak k : (forall j, j < k -> exists i, i < n /\ R j i <> f0) ->
  forall j, j < k -> gam j <> f0 /\ dot n (Q j) (R j) <> f0.
Proof.
  induction k as [|k IH]; intros Hr j Hj; [lia|].
  assert (IH' := IH (fun j Hj => Hr j (Nat.lt_lt_succ_r _ _ Hj))).
  destruct (Nat.eq_dec j k) as [->|N]; [|apply IH'; lia].
  destruct (Hr k (Nat.lt_succ_diag_r k)) as (i & Hi & Ni).
  assert (HQR : dot n (Q k) (R k) <> f0) by (intros E; apply Ni; apply (dQ k E i Hi)).
  split; [|exact HQR]. intros E. apply HQR. rewrite <- (cg_pr k IH'). apply dot_0. apply dA. exact E.
Qed.

Lemma zero_dec N : (exists k, k < N /\ forall i, i < n -> R k i = f0) \/ (forall k, k < N -> exists i, i < n /\ R k i <> f0).
Proof.
  induction N as [|N [(k & Hk & H)|IH]]; [right; lia|left; exists k; split; [lia|exact H]|].
  destruct (pivot_dec n (R N)) as [H|H]; [left; exists N; split; [lia|exact H]|].
  right. intros k Hk. destruct (Nat.eq_dec k N) as [->|]; [exact H|apply IH; lia].
Qed.

Lemma cg_end : exists k, k <= n /\ forall i, i < n -> R k i = f0.
Proof.
  destruct (zero_dec (S n)) as [(k & Hk & H)|H]; [exists k; split; [lia|exact H]|]. exfalso.
  destruct (kernel_exists n (fun i j => R j i)) as (z & (j & Hj & Nz) & Hz).
  assert (Hnz := cg_nobreak (S n) H). assert (Ho := cg_orth (S n) Hnz).
  apply Nz. apply (fmul_0 (dot n (Q j) (R j))); [|apply Hnz; exact Hj].
  transitivity (dot n (Q j) (mvec (S n) (fun i j => R j i) z)); [|apply dot_0r; exact Hz].
  unfold dot, mvec. symmetry.
  rewrite (sum_ext n _ (fun i => sum (S n) (fun l => fconj (Q j i) * R l i * z l))%F).
  2:{ intros i Hi. rewrite <- (sum_mul_l RL). apply sum_ext. intros l Hl. ring. }
  rewrite (sum_swap RL), (sum_single RL (S n) j); [apply (sum_mul_r RL)|exact Hj|].
  intros l Hl Nl. rewrite (sum_mul_r RL). fold (dot n (Q j) (R l)).
  destruct (Nat.lt_total l j) as [C|[C|C]]; [|congruence|].
  - rewrite HQ, dot_swap. destruct (Ho l j C ltac:(lia)) as (_ & _ & E). rewrite E, (fconj_0 RL). ring.
  - destruct (Ho j l C ltac:(lia)) as (_ & _ & E). rewrite E. ring.
Qed.
End CG.

(** ** The sequences of the biconjugate gradient method, for real fields *)
Section BICG.
Hypothesis real : forall a : K, fconj a = a.
Variable n : nat.
Variable A : nat -> nat -> K.
Variables R Rt P Pt : nat -> nat -> K.
Notation At := (tr true A).
Definition bgam k : K := dot n (mvec n A (P k)) (Pt k).
Definition bmu k : K := dot n (R k) (Rt k).
Definition bal k : K := (bmu k / bgam k)%F.
Definition bbe k : K := (bmu (S k) / bmu k)%F.
Hypothesis H0 : forall i, i < n -> P 0 i = R 0 i.
Hypothesis H0t : forall i, i < n -> Pt 0 i = Rt 0 i.
Hypothesis HR : forall k i, i < n -> R (S k) i = (R k i - bal k * mvec n A (P k) i)%F.
Hypothesis HRt : forall k i, i < n -> Rt (S k) i = (Rt k i - bal k * mvec n At (Pt k) i)%F.
Hypothesis HP : forall k i, i < n -> P (S k) i = (R (S k) i + bbe k * P k i)%F.
Hypothesis HPt : forall k i, i < n -> Pt (S k) i = (Rt (S k) i + bbe k * Pt k i)%F.

Lemma bicg_rt k v : dot n v (Rt (S k)) = (dot n v (Pt (S k)) - bbe k * dot n v (Pt k))%F.
Proof. rewrite (dot_ext' n v v (Pt (S k)) (fun i => Rt (S k) i + bbe k * Pt k i)%F) by (auto; apply HPt). rewrite dot_add_r. ring. Qed.
Lemma bicg_r k v : dot n (R (S k)) v = (dot n (P (S k)) v - bbe k * dot n (P k) v)%F.
Proof.
  rewrite (dot_ext' n (P (S k)) (fun i => R (S k) i + bbe k * P k i)%F v v) by (auto; apply HP).
  rewrite dot_add_l, real. ring.
Qed.

Lemma bicg_step k :
  (forall j, j <= k -> bgam j <> f0 /\ bmu j <> f0) ->
  (forall i j, i <> j -> i <= k -> j <= k -> dot n (R i) (Rt j) = f0 /\ dot n (mvec n A (P i)) (Pt j) = f0) ->
  forall j, j <= k -> (dot n (R (S k)) (Rt j) = f0 /\ dot n (mvec n A (P (S k))) (Pt j) = f0) /\
    (dot n (R j) (Rt (S k)) = f0 /\ dot n (mvec n A (P j)) (Pt (S k)) = f0).
Proof.
  intros Hnz IH.
  (* residuals *)
  assert (E1 : forall j, j <= k -> dot n (mvec n A (P k)) (Rt j) = if j =? k then bgam k else f0).
  { intros [|j] Hj.
    - rewrite (dot_ext' n _ (mvec n A (P k)) _ (Pt 0)) by (auto; intros; symmetry; auto).
      destruct (Nat.eqb_spec 0 k) as [<-|N]; [reflexivity|]. apply IH; lia.
    - rewrite bicg_rt. rewrite (proj2 (IH k j ltac:(lia) ltac:(lia) ltac:(lia))).
      destruct (Nat.eqb_spec (S j) k) as [E|N].
      + rewrite E. fold (bgam k). ring.
      + rewrite (proj2 (IH k (S j) ltac:(lia) ltac:(lia) ltac:(lia))). ring. }
  assert (E2 : forall j, j <= k -> dot n (R j) (mvec n At (Pt k)) = if j =? k then bgam k else f0).
  { intros [|j] Hj; rewrite <- (dot_mvec L).
    - rewrite (dot_ext' n _ (mvec n A (P 0)) _ (Pt k)); [|intros i Hi; apply mvec_ext; auto; intros; symmetry; auto|auto].
      destruct (Nat.eqb_spec 0 k) as [<-|N]; [reflexivity|]. apply IH; lia.
    - rewrite (dot_mvec L), bicg_r, <- !(dot_mvec L). rewrite (proj2 (IH j k ltac:(lia) ltac:(lia) ltac:(lia))).
      destruct (Nat.eqb_spec (S j) k) as [E|N].
      + rewrite E. fold (bgam k). ring.
      + rewrite (proj2 (IH (S j) k ltac:(lia) ltac:(lia) ltac:(lia))). ring. }
  assert (F1 : forall j, j <= k -> dot n (R (S k)) (Rt j) = f0).
  { intros j Hj. rewrite (dot_ext' n (R (S k)) (fun l => R k l - bal k * mvec n A (P k) l)%F (Rt j) (Rt j)) by (auto; apply HR).
    rewrite dot_sub_l, real, E1 by exact Hj. destruct (Nat.eqb_spec j k) as [->|N].
    - fold (bmu k). unfold bal. field. apply Hnz. lia.
    - rewrite (proj1 (IH k j ltac:(lia) ltac:(lia) Hj)). ring. }
  assert (F2 : forall j, j <= k -> dot n (R j) (Rt (S k)) = f0).
  { intros j Hj. rewrite (dot_ext' n (R j) (R j) (Rt (S k)) (fun l => Rt k l - bal k * mvec n At (Pt k) l)%F) by (auto; apply HRt).
    rewrite dot_sub_r, E2 by exact Hj. destruct (Nat.eqb_spec j k) as [->|N].
    - fold (bmu k). unfold bal. field. apply Hnz. lia.
    - rewrite (proj1 (IH j k ltac:(lia) Hj ltac:(lia))). ring. }
  assert (Hal : forall j, j <= k -> bal j <> f0) by (intros j Hj; apply fdiv_0; apply Hnz; exact Hj).
  (* directions *)
  assert (G1 : forall j, j <= k -> dot n (mvec n A (R (S k))) (Pt j) = if j =? k then fopp (bbe k * bgam k)%F else f0).
  { intros j Hj. rewrite (dot_mvec L).
    assert (E : (bal j * dot n (R (S k)) (mvec n At (Pt j)) = dot n (R (S k)) (Rt j) - dot n (R (S k)) (Rt (S j)))%F).
    { rewrite (dot_ext' n (R (S k)) (R (S k)) (Rt (S j)) (fun l => Rt j l - bal j * mvec n At (Pt j) l)%F) by (auto; apply HRt).
      rewrite dot_sub_r. ring. }
    rewrite F1 in E by exact Hj. destruct (Nat.eqb_spec j k) as [->|N].
    - fold (bmu (S k)) in E. transitivity (bal k * dot n (R (S k)) (mvec n At (Pt k)) / bal k)%F; [field; apply Hal; lia|].
      rewrite E. unfold bbe, bal. field. split; [apply Hnz; lia|]. apply Hnz; lia.
    - rewrite F1 in E by lia. apply (fmul_0 (bal j)); [|apply Hal; exact Hj]. rewrite E. ring. }
  assert (G2 : forall j, j <= k -> dot n (mvec n A (P j)) (Rt (S k)) = if j =? k then fopp (bbe k * bgam k)%F else f0).
  { intros j Hj.
    assert (E : (bal j * dot n (mvec n A (P j)) (Rt (S k)) = dot n (R j) (Rt (S k)) - dot n (R (S j)) (Rt (S k)))%F).
    { rewrite (dot_ext' n (R (S j)) (fun l => R j l - bal j * mvec n A (P j) l)%F (Rt (S k)) (Rt (S k))) by (auto; apply HR).
      rewrite dot_sub_l, real. ring. }
    rewrite F2 in E by exact Hj. destruct (Nat.eqb_spec j k) as [->|N].
    - fold (bmu (S k)) in E. transitivity (bal k * dot n (mvec n A (P k)) (Rt (S k)) / bal k)%F; [field; apply Hal; lia|].
      rewrite E. unfold bbe, bal. field. split; [apply Hnz; lia|]. apply Hnz; lia.
    - rewrite F2 in E by lia. apply (fmul_0 (bal j)); [|apply Hal; exact Hj]. rewrite E. ring. }
  intros j Hj. split; (split; [auto|]).
  - rewrite (dot_ext' n _ (fun l => mvec n A (R (S k)) l + bbe k * mvec n A (P k) l)%F (Pt j) (Pt j)).
    2:{ intros i Hi. rewrite <- mvec_add. apply mvec_ext; auto. }
    2: auto.
    rewrite dot_add_l, real, G1 by exact Hj. destruct (Nat.eqb_spec j k) as [->|N].
    + fold (bgam k). ring.
    + rewrite (proj2 (IH k j ltac:(lia) ltac:(lia) Hj)). ring.
  - rewrite (dot_ext' n _ (mvec n A (P j)) _ (fun l => Rt (S k) l + bbe k * Pt k l)%F) by (auto; apply HPt).
    rewrite dot_add_r, G2 by exact Hj. destruct (Nat.eqb_spec j k) as [->|N].
    + fold (bgam k). ring.
    + rewrite (proj2 (IH j k ltac:(lia) Hj ltac:(lia))). ring.
Qed.

(** As long as the method has not broken down, residuals and adjoint residuals are
    biorthogonal, and search directions and adjoint search directions are biconjugate. *)
Lemma bicg_orth k : (forall j, j < k -> bgam j <> f0 /\ bmu j <> f0) ->
  forall i j, i <> j -> i <= k -> j <= k -> dot n (R i) (Rt j) = f0 /\ dot n (mvec n A (P i)) (Pt j) = f0.
Proof.
  induction k as [|k IH]; intros Hnz i j N Hi Hj; [lia|].
  assert (IH' := IH (fun j Hj => Hnz j (Nat.lt_lt_succ_r _ _ Hj))).
  destruct (Nat.eq_dec i (S k)) as [->|Ni].
  - apply (bicg_step k); [intros l Hl; apply Hnz; lia|exact IH'|lia].
  - destruct (Nat.eq_dec j (S k)) as [->|Nj].
    + apply (bicg_step k); [intros l Hl; apply Hnz; lia|exact IH'|lia].
    + apply IH'; lia.
Qed.

Lemma break_dec N : (exists k, k < N /\ (bgam k = f0 \/ bmu k = f0)) \/ (forall k, k < N -> bgam k <> f0 /\ bmu k <> f0).
Proof.
  induction N as [|N [(k & Hk & H)|IH]]; [right; lia|left; exists k; split; [lia|exact H]|].
  assert (D : forall a : K, a = f0 \/ a <> f0).
  { intros a. destruct (feqb a f0) eqn:E; [left; apply (fl_eqb _ L); exact E|right; intros C; apply (fl_eqb _ L) in C; congruence]. }
  destruct (D (bgam N)) as [H|H]; [left; exists N; auto|]. destruct (D (bmu N)) as [H'|H']; [left; exists N; auto|].
  right. intros k Hk. destruct (Nat.eq_dec k N) as [->|]; [auto|apply IH; lia].
Qed.

(** The method stops after at most [n] steps. *)
Lemma bicg_end : exists k, k <= n /\ (bgam k = f0 \/ bmu k = f0).
Proof.
  destruct (break_dec (S n)) as [(k & Hk & H)|Hnz]; [exists k; split; [lia|exact H]|]. exfalso.
  destruct (kernel_exists n (fun i j => Rt j i)) as (z & (j & Hj & Nz) & Hz).
  assert (Ho := bicg_orth (S n) Hnz).
  apply Nz. apply (fmul_0 (bmu j)); [|apply Hnz; exact Hj].
  transitivity (dot n (R j) (mvec (S n) (fun i j => Rt j i) z)); [|apply dot_0r; exact Hz].
  unfold bmu, dot, mvec. symmetry.
  rewrite (sum_ext n _ (fun i => sum (S n) (fun l => fconj (R j i) * Rt l i * z l))%F).
  2:{ intros i Hi. rewrite <- (sum_mul_l RL). apply sum_ext. intros l Hl. ring. }
  rewrite (sum_swap RL), (sum_single RL (S n) j); [apply (sum_mul_r RL)|exact Hj|].
  intros l Hl Nl. rewrite (sum_mul_r RL). fold (dot n (R j) (Rt l)).
  rewrite (proj1 (Ho j l ltac:(lia) ltac:(lia) ltac:(lia))). ring.
Qed.
End BICG.
End Math.
