(** * Proofs about the LR decomposition *)
From Coq Require Import Arith NArith Lia List Bool Ring.
From Verif Require Import Fld Prog View Spec Loop Line Amatrix AmatrixP AmatrixP2
  Factor FactorSpec FactorP FactorP2 FactorP4 Lr.

Lemma upred_S n : 0 < n -> (N.of_nat n < 2 ^ 32)%N -> upred n = n - 1.
Proof.
  intros H0 H. unfold upred.
  replace (N.of_nat n + (2 ^ 32 - 1))%N with (N.of_nat (n - 1) + 1 * 2 ^ 32)%N by lia.
  rewrite N.mod_add by discriminate. rewrite N.mod_small by lia. apply Nat2N.id.
Qed.

Lemma upred_0 : exists c, upred 0 = S c.
Proof. exists (N.to_nat (2 ^ 32 - 2)). unfold upred. rewrite <- N2Nat.inj_succ. reflexivity. Qed.

Section LR.
Context {K : fops} (L : field_laws K).
Add Ring KringL : (rl_ring K (fl_ring K L)).
Implicit Types (m : mem K) (R W : addr -> Prop) (A : mat) (x : vec).
Notation lo := (tripart true true).
Notation up := (tripart false false).

(** State of the elimination after [p] steps on the leading [q] rows and columns. *)
Definition lrinv (q p : nat) (F f : nat -> nat -> K) : Prop :=
  forall i j, i < q -> j < q ->
    f i j = (sum p (fun k => lo F i k * up F k j)
             + (if (p <=? i) && (p <=? j) then F i j else f0))%F.

Lemma lrinv_0 q f : lrinv q 0 f f.
Proof. intros i j _ _. cbn [sum]. bsplit; ring. Qed.

Lemma lrinv_step q p (F F' f : nat -> nat -> K) :
  lrinv q p F f -> F p p <> f0 ->
  (forall i j, i < q -> j < q -> i <= p \/ j < p -> F' i j = F i j) ->
  (forall i, i < q -> p < i -> (F' i p * F p p = F i p)%F) ->
  (forall i j, i < q -> j < q -> p < i -> p < j -> (F' i j = F i j - F' i p * F p j)%F) ->
  p < q -> lrinv q (S p) F' f.
Proof.
  intros H Hp H1 H2 H3 Hq i j Hi Hj. rewrite (H i j Hi Hj). cbn [sum].
  rewrite (sum_ext p (fun k => lo F' i k * up F' k j)%F (fun k => lo F i k * up F k j)%F).
  2:{ intros k Hk. unfold tripart. f_equal; bsplit; try reflexivity; apply H1; lia. }
  assert (E : ((if (p <=? i) && (p <=? j) then F i j else f0)
               = lo F' i p * up F' p j + (if (S p <=? i) && (S p <=? j) then F' i j else f0))%F).
  { destruct (lt_eq_lt_dec i p) as [[Hip|Hip]|Hip]; destruct (lt_eq_lt_dec j p) as [[Hjp|Hjp]|Hjp];
      try subst i; try subst j; unfold tripart; bsplit; try ring.
    - rewrite (H1 p p) by lia. ring.
    - rewrite (H1 p j) by lia. ring.
    - rewrite (H1 p p), H2 by lia. ring.
    - rewrite (H1 p j), (H3 i j) by lia. ring. }
  rewrite E. ring.
Qed.

Lemma lrinv_last q p F f : lrinv q p F f -> S p = q -> lrinv q q F f.
Proof.
  intros H E i j Hi Hj. rewrite (H i j Hi Hj). subst q. cbn [sum].
  assert (E : ((if (p <=? i) && (p <=? j) then F i j else f0)
               = lo F i p * up F p j + (if (S p <=? i) && (S p <=? j) then F i j else f0))%F).
  { unfold tripart. bsplit; subst; try ring; try lia. }
  rewrite E. ring.
Qed.

(** Leading blocks are factorized. *)
Lemma lrinv_lead q p j F f : lrinv q p F f -> j <= p -> j <= q -> lrinv j j F f.
Proof.
  intros H Hp Hq i k Hi Hk. rewrite (H i k) by lia.
  rewrite (sum_tail (fl_ring K L) j p) by exact Hp.
  rewrite (sum_0 (fl_ring K L) (p - j)).
  - bsplit; ring.
  - intros l Hl. unfold tripart. bsplit; ring.
Qed.

Lemma lrinv_prod n F f : lrinv n n F f ->
  forall i j, i < n -> j < n -> mmul n (lo F) (up F) i j = f i j.
Proof. intros H i j Hi Hj. rewrite (H i j Hi Hj). unfold mmul. bsplit; ring. Qed.

Lemma mvec_mmul n (A B : nat -> nat -> K) v i :
  mvec n (mmul n A B) v i = mvec n A (mvec n B v) i.
Proof.
  unfold mvec, mmul.
  rewrite (sum_ext n _ (fun j => sum n (fun k => A i k * B k j * v j)%F)).
  2:{ intros j Hj. rewrite (sum_mul_r (fl_ring K L)). reflexivity. }
  rewrite (sum_swap (fl_ring K L)). apply sum_ext. intros k Hk.
  rewrite <- (sum_mul_l (fl_ring K L)). apply sum_ext. intros j Hj. ring.
Qed.

Lemma mvec_ext n (A B : nat -> nat -> K) (v w : nat -> K) i :
  (forall j, j < n -> A i j = B i j) -> (forall j, j < n -> v j = w j) -> mvec n A v i = mvec n B w i.
Proof. intros H1 H2. apply sum_ext. intros j Hj. rewrite H1, H2 by exact Hj. reflexivity. Qed.

Lemma mvec_0 n (A : nat -> nat -> K) i : mvec n A (fun _ => f0) i = f0.
Proof. apply (sum_0 (fl_ring K L)). intros. ring. Qed.

Lemma lo_diag n (F : nat -> nat -> K) i : i < n -> lo F i i <> f0.
Proof. intros _. unfold tripart. rewrite Nat.eqb_refl. apply (fl_1_neq_0 K L). Qed.

Lemma lrinv_regular n F f : lrinv n n F f -> (forall i, i < n -> F i i <> f0) -> regular n f.
Proof.
  intros H HD v Hv.
  assert (H1 : forall i, i < n -> mvec n (up F) v i = f0).
  { apply (tri_unique L false n (lo F) (mvec n (up F) v) (fun _ => f0)).
    - intros i j _ _ Hij. unfold tripart. bsplit; reflexivity.
    - intros i Hi. eapply lo_diag, Hi.
    - intros i Hi. rewrite <- mvec_mmul, mvec_0. transitivity (mvec n f v i); [|apply Hv, Hi].
      apply mvec_ext; [|reflexivity]. intros j Hj. apply (lrinv_prod n F f); assumption. }
  apply (tri_unique L true n (up F) v (fun _ => f0)).
  - intros i j _ _ Hij. unfold tripart. bsplit; reflexivity.
  - intros i Hi. unfold tripart. rewrite Nat.eqb_refl. auto.
  - intros i Hi. rewrite mvec_0. auto.
Qed.

(** Upper triangular systems can be solved. *)
Lemma up_exists n (T : nat -> nat -> K) :
  (forall i j, j < i -> T i j = f0) -> (forall i, i < n -> T i i <> f0) ->
  forall b : nat -> K, exists v : nat -> K, forall i, i < n -> mvec n T v i = b i.
Proof.
  intros HT. induction n as [|n IH]; intros HD b.
  - exists b. intros; lia.
  - set (c := (b n / T n n)%F).
    destruct (IH (fun i Hi => HD i (Nat.lt_lt_succ_r _ _ Hi)) (fun i => b i - T i n * c)%F) as [v Hv].
    exists (fun i => if i =? n then c else v i). intros i Hi. unfold mvec in *. cbn [sum].
    rewrite Nat.eqb_refl.
    rewrite (sum_ext n _ (fun j => T i j * v j)%F).
    2:{ intros j Hj. destruct (Nat.eqb_spec j n); [lia|reflexivity]. }
    destruct (Nat.eq_dec i n) as [->|Ne].
    + rewrite (sum_0 (fl_ring K L)).
      * unfold c. rewrite (mul_div L) by (apply HD; lia). ring.
      * intros j Hj. rewrite HT by exact Hj. ring.
    + rewrite Hv by lia. ring.
Qed.

Lemma lrinv_singular p F f : lrinv (S p) (S p) F f -> (forall i, i < p -> F i i <> f0) ->
  F p p = f0 -> singular (S p) f.
Proof.
  intros H HD HZ.
  destruct (up_exists p (up F)) with (b := fun i => (- F i p)%F) as [v Hv].
  { intros i j Hij. unfold tripart. bsplit; reflexivity. }
  { intros i Hi. unfold tripart. rewrite Nat.eqb_refl. auto. }
  exists (fun i => if i =? p then f1 else v i). split.
  { exists p. split; [lia|]. rewrite Nat.eqb_refl. apply (fl_1_neq_0 K L). }
  assert (H0 : forall i, i < S p -> mvec (S p) (up F) (fun i => if i =? p then f1 else v i) i = f0).
  { intros i Hi. unfold mvec in *. cbn [sum]. rewrite Nat.eqb_refl.
    rewrite (sum_ext p _ (fun j => up F i j * v j)%F).
    2:{ intros j Hj. destruct (Nat.eqb_spec j p); [lia|reflexivity]. }
    destruct (Nat.eq_dec i p) as [->|Ne].
    - rewrite (sum_0 (fl_ring K L)).
      + unfold tripart. rewrite Nat.eqb_refl, HZ. ring.
      + intros j Hj. unfold tripart. bsplit; ring.
    - rewrite Hv by lia. unfold tripart. bsplit; ring. }
  intros i Hi.
  rewrite (mvec_ext (S p) f (mmul (S p) (lo F) (up F)) _ (fun i => if i =? p then f1 else v i) i).
  - rewrite mvec_mmul. rewrite (mvec_ext (S p) (lo F) (lo F) _ (fun _ => f0) i); [apply mvec_0|auto|].
    intros j Hj. apply H0. exact Hj.
  - intros j Hj. symmetry. apply (lrinv_prod (S p) F f); assumption.
  - auto.
Qed.

(** One elimination step. *)
Definition lrG (F : nat -> nat -> K) (i : nat) (alpha : K) (j k : nat) : K :=
  if (i <? j) && (i <=? k) then
    if k =? i then (F j i * alpha)%F else (F j k - F j i * alpha * F i k)%F
  else F j k.

Lemma wp_lr_step R W A n i alpha F m (Q : unit -> mem K -> Prop) :
  mwf A -> mval m A F -> wrok W (inm A) -> mrows A = n -> mcols A = n -> i < n ->
  (forall m', mval m' A (lrG F i alpha) -> keeps (inm A) m m' -> Q tt m') ->
  wp R W (lr_step A n i alpha) m Q.
Proof.
  intros Hwf HF Hw Hr Hc Hi HQ. unfold lr_step.
  apply (wp_for (fun j m1 => mval m1 A (fun p q => if p <? j then lrG F i alpha p q else F p q)
                             /\ keeps (inm A) m m1)).
  - split; [|apply keeps_refl]. eapply mval_ext; [exact HF|]. intros p q _ _; cbv beta.
    unfold lrG. bsplit; reflexivity.
  - intros j m1 Hj [Hv Hk]. wstep. wstep.
    match goal with |- wp _ _ _ (upd m1 ?a ?e) _ => set (m2 := upd m1 a e) end.
    assert (Hwr : wrote m1 (ma A j i) (F j i * alpha)%F m2).
    { subst m2. wrote_tac. }
    assert (Hk2 : keeps (inm A) m m2).
    { eapply wrote_keeps; [exact Hk|exact Hwr|]. apply inm_ma; lia. }
    assert (Hv2 : mval m2 A (fun p q => if (p <? j) || (p =? j) && (q <? i + 1)
                                        then lrG F i alpha p q else F p q)).
    { eapply mval_fupd_step; [exact Hwf|exact Hv|exact Hwr|lia|].
      intros p q Hp Hq; cbv beta. unfold lrG. bsplit; subst; try reflexivity; try lia. }
    clearbody m2.
    apply (wp_for (fun k m3 => mval m3 A (fun p q => if (p <? j) || (p =? j) && (q <? k)
                                        then lrG F i alpha p q else F p q)
                             /\ keeps (inm A) m m3)).
    + split; assumption.
    + intros k m3 Hk3 [Hv3 Hkp3]. wstep. wstep. wstep. wstep.
      match goal with |- context [upd m3 ?a ?e] => set (m4 := upd m3 a e) end.
      assert (Hwr4 : wrote m3 (ma A j k) (lrG F i alpha j k) m4).
      { subst m4. wrote_tac; unfold lrG; bsplit; try reflexivity; try lia. }
      clearbody m4. split.
      * eapply mval_fupd_step; [exact Hwf|exact Hv3|exact Hwr4|lia|].
        intros p q Hp Hq; cbv beta. bsplit; subst; reflexivity.
      * eapply wrote_keeps; [exact Hkp3|exact Hwr4|]. apply inm_ma; lia.
    + intros m3 [Hv3 Hk3]. split; [|exact Hk3]. eapply mval_ext; [exact Hv3|].
      intros p q Hp Hq; cbv beta. bsplit; reflexivity.
  - intros m1 [Hv Hk]. apply HQ; [|exact Hk]. eapply mval_ext; [exact Hv|].
    intros p q Hp Hq; cbv beta. bsplit; reflexivity.
Qed.

Lemma lrG_inv n i F f : lrinv n i F f -> F i i <> f0 -> i < n ->
  lrinv n (S i) (lrG F i (f1 / F i i)%F) f.
Proof.
  intros H HF Hi. eapply lrinv_step; [exact H|exact HF| | | |exact Hi].
  - intros p q Hp Hq Ho. unfold lrG. bsplit; reflexivity.
  - intros p Hp Hip. unfold lrG. bsplit; try lia.
    transitivity (F i i * (F p i * (f1 / F i i)))%F; [ring|]. apply (inv_mul L). exact HF.
  - intros p q Hp Hq H1 H2. unfold lrG. bsplit; try reflexivity; lia.
Qed.

(** What lrdecomp_amatrix leaves behind: for a positive result only the leading part
    is described. *)
Definition lrpost (n : nat) (f F : nat -> nat -> K) (r : nat) : Prop :=
  r = 0 /\ lrinv n n F f /\ (forall i, i < n -> F i i <> f0) \/
  exists p, r = p + 1 /\ p < n /\ lrinv (p + 1) p F f /\ F p p = f0 /\ (forall i, i < p -> F i i <> f0).

Lemma feqb_false (a : K) : feqb a f0 = false -> a <> f0.
Proof. intros H E. apply (fl_eqb K L) in E. congruence. Qed.

Lemma wp_lr_loop R W A n f cnt : forall i F m (Q : nat -> mem K -> Prop),
  mwf A -> mval m A F -> wrok W (inm A) -> mrows A = n -> mcols A = n -> i + cnt + 1 = n ->
  lrinv n i F f -> (forall k, k < i -> F k k <> f0) ->
  (forall r (F' : nat -> nat -> K) m', lrpost n f F' r -> mval m' A F' -> keeps (inm A) m m' -> Q r m') ->
  wp R W (lr_loop A n i cnt) m Q.
Proof.
  induction cnt as [|cnt IH]; intros i F m Q Hwf HF Hw Hr Hc Hn HI HD HQ; cbn [lr_loop].
  - wstep. destruct (feqb (F i i) f0) eqn:E.
    + cbn [wp]. eapply HQ; [|exact HF|apply keeps_refl]. right. exists i.
      split; [reflexivity|]. split; [lia|].
      split; [intros p q Hp Hq; apply HI; lia|]. split; [apply (fl_eqb K L), E|exact HD].
    + cbn [wp]. eapply HQ; [|exact HF|apply keeps_refl]. left. split; [reflexivity|].
      split; [eapply lrinv_last; [exact HI|lia]|].
      intros k Hk. destruct (Nat.eq_dec k i) as [->|Ne]; [apply feqb_false, E|apply HD; lia].
  - wstep. destruct (feqb (F i i) f0) eqn:E.
    + cbn [wp]. eapply HQ; [|exact HF|apply keeps_refl]. right. exists i.
      split; [reflexivity|]. split; [lia|].
      split; [intros p q Hp Hq; apply HI; lia|]. split; [apply (fl_eqb K L), E|exact HD].
    + apply feqb_false in E. apply wp_bind. eapply wp_lr_step; eauto; [lia|].
      intros m1 Hm1 Hk1. rewrite Nat.add_1_r. eapply IH; eauto; [lia|apply lrG_inv; [exact HI|exact E|lia]| |].
      * intros k Hk. unfold lrG. bsplit; try lia; (destruct (Nat.eq_dec k i) as [->|]; [exact E|apply HD; lia]).
      * intros r F' m2 HP Hm2 Hk2. eapply HQ; [exact HP|exact Hm2|]. eapply keeps_trans; eassumption.
Qed.

Lemma wp_lrdecomp_amatrix R W A f m (Q : nat -> mem K -> Prop) :
  mwf A -> mval m A f -> wrok W (inm A) -> mrows A = mcols A -> 0 < mrows A ->
  (N.of_nat (mrows A) < 2 ^ 32)%N ->
  (forall r (F : nat -> nat -> K) m', lrpost (mrows A) f F r -> mval m' A F -> keeps (inm A) m m' -> Q r m') ->
  wp R W (lrdecomp_amatrix A) m Q.
Proof.
  intros Hwf HF Hw Hc H0 H32 HQ. unfold lrdecomp_amatrix. wstep. rewrite (upred_S _ H0 H32).
  eapply (wp_lr_loop R W A (mrows A) f); eauto; [lia|apply lrinv_0|intros; lia].
Qed.

(** Consequences for the given matrix. *)
Lemma lrpost_0 n f F : lrpost n f F 0 ->
  (forall i j, i < n -> j < n -> mmul n (lo F) (up F) i j = f i j) /\
  (forall i, i < n -> F i i <> f0) /\ forall j, j <= n -> regular j f.
Proof.
  intros [[_ [H HD]]|[p [E _]]]; [|lia]. split; [apply lrinv_prod, H|]. split; [exact HD|].
  intros j Hj. apply (lrinv_regular j F); [eapply lrinv_lead; eauto|]. intros i Hi. apply HD. lia.
Qed.

Lemma lrpost_S n f F r : lrpost n f F r -> 0 < r ->
  r <= n /\ singular r f /\ forall j, j < r -> regular j f.
Proof.
  intros [[E _]|[p [-> [Hp [H [HZ HD]]]]]] Hr; [lia|]. split; [lia|]. rewrite Nat.add_1_r. split.
  - eapply lrinv_singular; eauto. eapply lrinv_last; [|reflexivity].
    rewrite Nat.add_1_r in H. exact H.
  - intros j Hj. apply (lrinv_regular j F); [eapply lrinv_lead; eauto; lia|]. intros i Hi. apply HD. lia.
Qed.

(** The result and the factors are determined by the matrix. *)
Lemma regular_singular n (f : nat -> nat -> K) : regular n f -> singular n f -> False.
Proof. intros H [v [[i [Hi Hv]] H0]]. apply Hv. apply (H v H0 i Hi). Qed.

Lemma lrinv_entry n F f i j : lrinv n n F f -> i < n -> j < n ->
  f i j = (sum (Nat.min i j) (fun k => F i k * F k j)
           + (if i <=? j then F i j else F i j * F j j))%F.
Proof.
  intros H Hi Hj. rewrite (H i j Hi Hj).
  rewrite (sum_tail (fl_ring K L) (S (Nat.min i j)) n) by lia. cbn [sum].
  rewrite (sum_0 (fl_ring K L) (n - S (Nat.min i j))).
  2:{ intros k Hk. unfold tripart. bsplit; ring. }
  rewrite (sum_ext (Nat.min i j) (fun k => lo F i k * up F k j)%F (fun k => F i k * F k j)%F).
  2:{ intros k Hk. unfold tripart. bsplit; reflexivity. }
  unfold tripart. bsplit; try (replace (Nat.min i j) with i in * by lia);
    try (replace (Nat.min i j) with j in * by lia); try ring; try lia.
Qed.

Lemma lrinv_unique n F F' f : lrinv n n F f -> lrinv n n F' f -> (forall i, i < n -> F i i <> f0) ->
  forall i j, i < n -> j < n -> F i j = F' i j.
Proof.
  intros H H' HD.
  assert (HP : forall p i j, i < n -> j < n -> Nat.min i j < p -> F i j = F' i j).
  { induction p as [|p IH]; intros i j Hi Hj Hp; [lia|].
    assert (EU : forall i j, i < n -> j < n -> Nat.min i j < S p -> i <= j -> F i j = F' i j).
    { clear i j Hi Hj Hp. intros i j Hi Hj Hp Hij.
      pose proof (lrinv_entry n F f i j H Hi Hj) as E. rewrite (lrinv_entry n F' f i j H' Hi Hj) in E.
      rewrite (sum_ext (Nat.min i j) (fun k => F i k * F k j)%F (fun k => F' i k * F' k j)%F) in E.
      2:{ intros k Hk. rewrite !IH by lia. reflexivity. }
      destruct (Nat.leb_spec i j); [|lia]. set (c := sum (Nat.min i j) _) in E.
      transitivity (c + F i j - c)%F; [ring|]. rewrite <- E. ring. }
    destruct (Nat.le_gt_cases i j) as [Hij|Hij]; [apply EU; assumption|].
    pose proof (lrinv_entry n F f i j H Hi Hj) as E. rewrite (lrinv_entry n F' f i j H' Hi Hj) in E.
    rewrite (sum_ext (Nat.min i j) (fun k => F i k * F k j)%F (fun k => F' i k * F' k j)%F) in E.
    2:{ intros k Hk. rewrite !IH by lia. reflexivity. }
    destruct (Nat.leb_spec i j); [lia|]. rewrite <- (EU j j) in E by lia.
    set (c := sum (Nat.min i j) _) in E.
    apply (mul_cancel L (F j j)); [auto|].
    transitivity (c + F i j * F j j - c)%F; [ring|]. rewrite <- E. ring. }
  intros i j Hi Hj. apply (HP (S (Nat.min i j))); auto.
Qed.

Lemma lrpost_unique n f F F' r r' : lrpost n f F r -> lrpost n f F' r' ->
  r = r' /\ (r = 0 -> forall i j, i < n -> j < n -> F i j = F' i j).
Proof.
  intros H H'.
  assert (E : r = r').
  { destruct (Nat.eq_dec r 0) as [->|N]; destruct (Nat.eq_dec r' 0) as [->|N'].
    - reflexivity.
    - exfalso. destruct (lrpost_S _ _ _ _ H') as [H1 [H2 _]]; [lia|].
      eapply regular_singular; [|exact H2]. eapply lrpost_0; [exact H|exact H1].
    - exfalso. destruct (lrpost_S _ _ _ _ H) as [H1 [H2 _]]; [lia|].
      eapply regular_singular; [|exact H2]. eapply lrpost_0; [exact H'|exact H1].
    - destruct (lrpost_S _ _ _ _ H) as [H1 [H2 H3]]; [lia|].
      destruct (lrpost_S _ _ _ _ H') as [H1' [H2' H3']]; [lia|].
      destruct (lt_eq_lt_dec r r') as [[Hlt|Heq]|Hlt]; [|exact Heq|];
        exfalso; eapply regular_singular; eauto. }
  split; [exact E|]. intros ->. subst r'.
  destruct H as [[_ [HI HD]]|[p [Ep _]]]; [|lia].
  destruct H' as [[_ [HI' HD']]|[p [Ep _]]]; [|lia].
  eapply lrinv_unique; eassumption.
Qed.
End LR.
