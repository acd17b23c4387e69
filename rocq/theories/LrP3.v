(** * The blocked LR decomposition *)
From Coq Require Import Arith NArith Lia List Bool Ring.
From Verif Require Import Fld Prog View Spec Loop Avector AvectorP Amatrix AmatrixP Factor FactorSpec Line
  FactorP FactorP2 FactorP3 FactorP4 Lr LrP LrP2.

Lemma disj_subm A ro rs co cs ro' rs' co' cs' : mwf A ->
  ro + rs <= mrows A -> ro' + rs' <= mrows A ->
  ro + rs <= ro' \/ ro' + rs' <= ro \/ co + cs <= co' \/ co' + cs' <= co ->
  disj (inm (subm A ro rs co cs)) (inm (subm A ro' rs' co' cs')).
Proof.
  intros Hw H1 H2 Hs a [i [j [Hi [Hj ->]]]] [i' [j' [Hi' [Hj' E]]]].
  rewrite !ma_subm in E. cbn in Hi, Hj, Hi', Hj'.
  apply ma_inj in E; [|exact Hw|lia|lia]. lia.
Qed.

(** Block offsets without wrap-around. *)
Definition goodoff (n B : nat) (o : nat -> nat) : Prop :=
  o 0 = 0 /\ o B = n /\ forall i, i < B -> o i < o (i + 1).

Lemma goodoff_le n B o : goodoff n B o -> forall j i, i <= j -> j <= B -> o i <= o j.
Proof.
  intros [_ [_ H]]. induction j as [|j IH]; intros i Hi Hj.
  - replace i with 0 by lia. lia.
  - destruct (Nat.eq_dec i (S j)) as [->|Hne]; [lia|].
    specialize (H j). rewrite Nat.add_1_r in H. specialize (IH i). lia.
Qed.

Lemma blockoff_nowrap n B k : 0 < B -> (N.of_nat n * N.of_nat k < 2 ^ 32)%N -> blockoff n B k = n * k / B.
Proof.
  intros HB Hk. unfold blockoff. rewrite N.mod_small by exact Hk.
  rewrite <- Nat2N.inj_mul, <- Nat2N.inj_div. apply Nat2N.id.
Qed.

Lemma blockoff_good n B : 0 < B -> B <= n -> (N.of_nat n * N.of_nat B < 2 ^ 32)%N -> goodoff n B (blockoff n B).
Proof.
  intros HB Hn Hov.
  assert (E : forall k, k <= B -> blockoff n B k = n * k / B).
  { intros k Hk. apply blockoff_nowrap; [exact HB|]. nia. }
  split; [|split].
  - rewrite E by lia. rewrite Nat.mul_0_r. apply Nat.div_0_l. lia.
  - rewrite E by lia. apply Nat.div_mul. lia.
  - intros i Hi. rewrite !E by lia.
    apply Nat.lt_le_trans with (n * i / B + 1); [lia|].
    replace (n * i / B + 1) with ((n * i + 1 * B) / B) by (rewrite Nat.div_add; lia).
    apply Nat.div_le_mono; nia.
Qed.

Section LR3.
Context {K : fops} (L : field_laws K).
Add Ring KringL3 : (rl_ring K (fl_ring K L)).
Implicit Types (m : mem K) (R W : addr -> Prop) (A : mat) (x : vec).
Notation lo := (tripart true true).
Notation up := (tripart false false).

Lemma conj_inj (a b : K) : fconj a = fconj b -> a = b.
Proof. intros H. rewrite <- (rl_conj_conj K (fl_ring K L) a), H. apply (rl_conj_conj K (fl_ring K L)). Qed.

Lemma wp_uninit_sub R W A ro rs co cs m (Q : unit -> mem K -> Prop) :
  Q tt m -> wp R W (uninit_amatrix (subm A ro rs co cs)) m Q.
Proof. intros H. exact H. Qed.

(** One block step in terms of entries. *)
Lemma lrinv_block n ko ks (F F' f : nat -> nat -> K) :
  ko + ks <= n ->
  lrinv n ko F f ->
  (forall i j, i < n -> j < n -> i < ko \/ j < ko -> F' i j = F i j) ->
  lrinv ks ks (fun i j => F' (ko + i)%nat (ko + j)%nat) (fun i j => F (ko + i)%nat (ko + j)%nat) ->
  (forall p q, p < ks -> ko + ks <= q -> q < n ->
     sum ks (fun k => lo (fun i j => F' (ko + i)%nat (ko + j)%nat) p k * F' (ko + k)%nat q)%F = F (ko + p) q) ->
  (forall p q, q < ks -> ko + ks <= p -> p < n ->
     sum ks (fun k => F' p (ko + k)%nat * up (fun i j => F' (ko + i)%nat (ko + j)%nat) k q)%F = F p (ko + q)) ->
  (forall p q, ko + ks <= p -> ko + ks <= q -> p < n -> q < n ->
     F' p q = (F p q - sum ks (fun k => F' p (ko + k)%nat * F' (ko + k)%nat q))%F) ->
  lrinv n (ko + ks) F' f.
Proof.
  intros Hn HI Hold HD HR HL HS i j Hi Hj. rewrite (HI i j Hi Hj).
  rewrite (sum_app (fl_ring K L)).
  rewrite (sum_ext ko (fun k => lo F' i k * up F' k j)%F (fun k => lo F i k * up F k j)%F).
  2:{ intros k Hk. unfold tripart. rewrite !(Hold i k), !(Hold k j) by lia. reflexivity. }
  assert (E : ((if (ko <=? i) && (ko <=? j) then F i j else f0) =
     sum ks (fun k => lo F' i (ko + k)%nat * up F' (ko + k)%nat j)
     + (if ((ko + ks)%nat <=? i) && ((ko + ks)%nat <=? j) then F' i j else f0))%F).
  2:{ rewrite E. ring. }
  destruct (Nat.lt_ge_cases i ko) as [Hi1|Hi1].
  { rewrite (sum_0 (fl_ring K L)).
    2:{ intros k Hk. unfold tripart. bsplit; ring. }
    bsplit; ring. }
  destruct (Nat.lt_ge_cases j ko) as [Hj1|Hj1].
  { rewrite (sum_0 (fl_ring K L)).
    2:{ intros k Hk. unfold tripart. bsplit; ring. }
    bsplit; ring. }
  destruct (Nat.leb_spec ko i); [|lia]. destruct (Nat.leb_spec ko j); [|lia]. cbn [andb].
  destruct (Nat.leb_spec (ko + ks) i) as [Hi2|Hi2]; destruct (Nat.leb_spec (ko + ks) j) as [Hj2|Hj2]; cbn [andb].
  - rewrite (HS i j) by lia.
    rewrite (sum_ext ks (fun k => lo F' i (ko + k)%nat * up F' (ko + k)%nat j)%F (fun k => F' i (ko + k)%nat * F' (ko + k)%nat j)%F).
    2:{ intros k Hk. unfold tripart. bsplit; reflexivity. }
    ring.
  - replace (F i j) with (F i (ko + (j - ko))) by (f_equal; lia).
    rewrite <- (HL i (j - ko)) by lia.
    rewrite (sum_ext ks (fun k => lo F' i (ko + k)%nat * up F' (ko + k)%nat j)%F
       (fun k => F' i (ko + k)%nat * up (fun i j => F' (ko + i)%nat (ko + j)%nat) k (j - ko)%nat)%F).
    2:{ intros k Hk. replace (up F' (ko + k) j) with (up (fun i j => F' (ko + i)%nat (ko + j)%nat) k (j - ko)).
        - unfold tripart at 1. bsplit; reflexivity.
        - unfold tripart. replace (ko + (j - ko)) with j by lia. bsplit; try reflexivity; lia. }
    ring.
  - replace (F i j) with (F (ko + (i - ko)) j) by (f_equal; lia).
    rewrite <- (HR (i - ko) j) by lia.
    rewrite (sum_ext ks (fun k => lo F' i (ko + k)%nat * up F' (ko + k)%nat j)%F
       (fun k => lo (fun i j => F' (ko + i)%nat (ko + j)%nat) (i - ko)%nat k * F' (ko + k)%nat j)%F).
    2:{ intros k Hk. replace (lo F' i (ko + k)) with (lo (fun i j => F' (ko + i)%nat (ko + j)%nat) (i - ko) k).
        - unfold tripart at 2. bsplit; reflexivity.
        - unfold tripart. replace (ko + (i - ko)) with i by lia. bsplit; try reflexivity; lia. }
    ring.
  - pose proof (HD (i - ko) (j - ko)) as E. cbv beta in E.
    replace (ko + (i - ko)) with i in E by lia. replace (ko + (j - ko)) with j in E by lia.
    rewrite E by lia. bsplit; try lia.
    rewrite (sum_ext ks (fun k => lo F' i (ko + k)%nat * up F' (ko + k)%nat j)%F
       (fun k => lo (fun i j => F' (ko + i)%nat (ko + j)%nat) (i - ko)%nat k
                 * up (fun i j => F' (ko + i)%nat (ko + j)%nat) k (j - ko)%nat)%F).
    { reflexivity. }
    intros k Hk. unfold tripart. replace (ko + (i - ko)) with i by lia. replace (ko + (j - ko)) with j by lia.
    bsplit; try reflexivity; lia.
Qed.

Section Block.
Variables (R W : addr -> Prop) (A : mat) (n B k : nat).
Hypothesis HW : mwf A.
Hypothesis Hwr : wrok W (inm A).
Hypothesis Er : mrows A = n.
Hypothesis Ec : mcols A = n.
Hypothesis Hk : k < B.
Notation o := (blockoff n B).
Hypothesis Ho : goodoff n B o.
Notation ko := (o k).
Notation ks := (o (k + 1) - o k).

Lemma o_k : ko < o (k + 1) /\ o (k + 1) <= n.
Proof using Hk Ho.
  clear Er Ec. split; [apply Ho, Hk|]. pose proof Ho as [_ [E _]]. pose proof (goodoff_le n B o Ho B (k + 1)). lia.
Qed.
Lemma o_j j : k + 1 <= j -> j < B -> o (k + 1) <= o j /\ o j < o (j + 1) /\ o (j + 1) <= n.
Proof.
  intros H1 H2. pose proof Ho as [_ [E H]].
  pose proof (goodoff_le n B o Ho B (j + 1)). pose proof (goodoff_le n B o Ho j (k + 1)).
  specialize (H j). lia.
Qed.

(** The row of blocks to the right of the diagonal block. *)
Definition Rdone (F F2 : nat -> nat -> K) (jo : nat) : Prop :=
  (forall p q, p < n -> q < n -> ~ (ko <= p < ko + ks /\ ko + ks <= q < jo) -> F2 p q = F p q) /\
  (forall p q, p < ks -> ko + ks <= q -> q < jo ->
     sum ks (fun l => lo (fun i j => F (ko + i)%nat (ko + j)%nat) p l * F2 (ko + l)%nat q)%F = F (ko + p) q).

Lemma wp_lr_right F m (Q : unit -> mem K -> Prop) :
  mval m A F ->
  (forall (F2 : nat -> nat -> K) m', mval m' A F2 -> keeps (inm A) m m' -> Rdone F F2 n -> Q tt m') ->
  wp R W (for_ (k + 1) (B - (k + 1)) (fun j =>
    r <- init_sub_amatrix A ks ko (o (j + 1) - o j) (o j) ;;
    triangularsolve_amatrix true true false (subm A ko ks ko ks) false r ;;;
    uninit_amatrix r)) m Q.
Proof.
  intros HF HQ. pose proof o_k as [Hok1 Hok2].
  apply (wp_for (fun j m1 => exists F2, mval m1 A F2 /\ keeps (inm A) m m1 /\ Rdone F F2 (o j))).
  - exists F. split; [exact HF|]. split; [apply keeps_refl|]. split; [reflexivity|].
    intros p q Hp Hq Hq'. lia.
  - intros j m1 Hj [F2 [HF2 [Hk2 [HD1 HD2]]]].
    destruct (o_j j) as [Hj1 [Hj2 Hj3]]; [lia|lia|].
    apply wp_bind. apply wp_init_sub_amatrix; [lia|lia|].
    apply wp_bind.
    eapply (wp_triangularsolve_amatrix L) with (f := fun i j => F2 (ko + i)%nat (ko + j)%nat);
      [apply mwf_subm; [exact HW|lia]
      |apply mval_pval, mval_subm; [exact HF2|lia|lia]
      |apply mval_subm; [exact HF2|lia|lia]
      |apply disj_inp, disj_subm; [exact HW|lia|lia|lia]
      | | |unfold lnn; cbn; lia|left; reflexivity|].
    { intros a Ha. right. apply Hwr. eapply inm_subm; [| |eapply inp_inm, Ha]; lia. }
    { intros a Ha. apply Hwr. eapply inm_subm; [| |exact Ha]; lia. }
    unfold lnn, nln. cbn [mrows mcols subm]. rewrite Nat.min_id. intros Y m2 HY _ HmY HkY.
    apply wp_uninit_sub. cbn [tr] in HY.
    eexists. split; [eapply mval_subm_back; [exact HW|exact HF2| | |exact HmY|exact HkY]; lia|].
    split; [eapply keeps_trans; [exact Hk2|]; eapply keeps_subm; [| |exact HkY]; lia|].
    rewrite <- (Nat.add_1_r j). split.
    + intros p q Hp Hq Hn. rewrite <- (HD1 p q) by lia. bsplit; try reflexivity; lia.
    + intros p q Hp Hq Hq'.
      destruct (Nat.lt_ge_cases q (o j)) as [Hqj|Hqj].
      * rewrite <- (HD2 p q) by lia. apply sum_ext. intros l Hl. f_equal. bsplit; try reflexivity; lia.
      * rewrite <- (HD1 (ko + p) q) by lia.
        specialize (HY p (q - o j)). unfold mmul in HY.
        replace (o j + (q - o j)) with q in HY by lia. rewrite <- HY by lia.
        apply sum_ext. intros l Hl. f_equal.
        -- unfold tripart. rewrite (HD1 (ko + p) (ko + l)) by lia. reflexivity.
        -- replace (ko + l - ko) with l by lia. bsplit; try reflexivity; lia.
  - intros m1 [F2 [HF2 [Hk2 HD]]]. eapply HQ; [exact HF2|exact Hk2|].
    replace (k + 1 + (B - (k + 1))) with B in HD by lia. destruct Ho as [_ [E _]]. rewrite E in HD. exact HD.
Qed.

(** The column of blocks below the diagonal block. *)
Definition Ldone (F F2 : nat -> nat -> K) (io : nat) : Prop :=
  (forall p q, p < n -> q < n -> ~ (ko <= q < ko + ks /\ ko + ks <= p < io) -> F2 p q = F p q) /\
  (forall p q, q < ks -> ko + ks <= p -> p < io ->
     sum ks (fun l => F2 p (ko + l)%nat * up (fun i j => F (ko + i)%nat (ko + j)%nat) l q)%F = F p (ko + q)).

Lemma wp_lr_left F m (Q : unit -> mem K -> Prop) :
  mval m A F -> (forall i, i < ks -> F (ko + i) (ko + i) <> f0) ->
  (forall (F2 : nat -> nat -> K) m', mval m' A F2 -> keeps (inm A) m m' -> Ldone F F2 n -> Q tt m') ->
  wp R W (for_ (k + 1) (B - (k + 1)) (fun i =>
    l <- init_sub_amatrix A (o (i + 1) - o i) (o i) ks ko ;;
    triangularsolve_amatrix false false true (subm A ko ks ko ks) true l ;;;
    uninit_amatrix l)) m Q.
Proof.
  intros HF Hpiv HQ. pose proof o_k as [Hok1 Hok2].
  apply (wp_for (fun j m1 => exists F2, mval m1 A F2 /\ keeps (inm A) m m1 /\ Ldone F F2 (o j))).
  - exists F. split; [exact HF|]. split; [apply keeps_refl|]. split; [reflexivity|].
    intros p q Hp Hq Hq'. lia.
  - intros j m1 Hj [F2 [HF2 [Hk2 [HD1 HD2]]]].
    destruct (o_j j) as [Hj1 [Hj2 Hj3]]; [lia|lia|].
    apply wp_bind. apply wp_init_sub_amatrix; [lia|lia|].
    apply wp_bind.
    eapply (wp_triangularsolve_amatrix L) with (f := fun i j => F2 (ko + i)%nat (ko + j)%nat);
      [apply mwf_subm; [exact HW|lia]
      |apply mval_pval, mval_subm; [exact HF2|lia|lia]
      |apply mval_subm; [exact HF2|lia|lia]
      |apply disj_inp, disj_subm; [exact HW|lia|lia|lia]
      | | |unfold lnn; cbn; lia| |].
    { intros a Ha. right. apply Hwr. eapply inm_subm; [| |eapply inp_inm, Ha]; lia. }
    { intros a Ha. apply Hwr. eapply inm_subm; [| |exact Ha]; lia. }
    { right. cbn [mrows mcols subm]. rewrite Nat.min_id. intros i Hi. rewrite HD1 by lia. apply Hpiv, Hi. }
    unfold lnn, nln. cbn [mrows mcols subm]. rewrite Nat.min_id. intros Y m2 HY _ HmY HkY.
    apply wp_uninit_sub.
    eexists. split; [eapply mval_subm_back; [exact HW|exact HF2| | |exact HmY|exact HkY]; lia|].
    split; [eapply keeps_trans; [exact Hk2|]; eapply keeps_subm; [| |exact HkY]; lia|].
    rewrite <- (Nat.add_1_r j). split.
    + intros p q Hp Hq Hn. rewrite <- (HD1 p q) by lia. bsplit; try reflexivity; lia.
    + intros p q Hp Hq Hq'.
      destruct (Nat.lt_ge_cases p (o j)) as [Hqj|Hqj].
      * rewrite <- (HD2 p q) by lia. apply sum_ext. intros l Hl. f_equal. bsplit; try reflexivity; lia.
      * rewrite <- (HD1 p (ko + q)) by lia.
        specialize (HY q (p - o j)). unfold mmul in HY. cbn [tr] in HY.
        replace (o j + (p - o j)) with p in HY by lia.
        apply conj_inj. rewrite <- HY by lia. rewrite (sum_conj (fl_ring K L)).
        apply sum_ext. intros l Hl. rewrite (rl_conj_mul K (fl_ring K L)).
        replace (up (fun i j0 => F (ko + i)%nat (ko + j0)%nat) l q)
          with (up (fun i j0 => F2 (ko + i)%nat (ko + j0)%nat) l q).
        2:{ unfold tripart. rewrite (HD1 (ko + l) (ko + q)) by lia. reflexivity. }
        replace (ko + l - ko) with l by lia.
        bsplit; try lia. ring.
  - intros m1 [F2 [HF2 [Hk2 HD]]]. eapply HQ; [exact HF2|exact Hk2|].
    replace (k + 1 + (B - (k + 1))) with B in HD by lia. destruct Ho as [_ [E _]]. rewrite E in HD. exact HD.
Qed.

(** The trailing blocks. *)
Definition Sval (F : nat -> nat -> K) (p q : nat) : K :=
  (F p q - sum ks (fun l => F p (ko + l)%nat * F (ko + l)%nat q))%F.
Definition Supd (F : nat -> nat -> K) (jo jo' io p q : nat) : K :=
  if (ko + ks <=? p) && (ko + ks <=? q) && ((q <? jo) || (p <? io) && (q <? jo')) then Sval F p q else F p q.

Lemma wp_lr_trail F m (Q : unit -> mem K -> Prop) :
  mval m A F ->
  (forall m', mval m' A (Supd F n n n) -> keeps (inm A) m m' -> Q tt m') ->
  wp R W (for_ (k + 1) (B - (k + 1)) (fun j =>
    r <- init_sub_amatrix A ks ko (o (j + 1) - o j) (o j) ;;
    for_ (k + 1) (B - (k + 1)) (fun i =>
      l <- init_sub_amatrix A (o (i + 1) - o i) (o i) ks ko ;;
      s <- init_sub_amatrix A (o (i + 1) - o i) (o i) (o (j + 1) - o j) (o j) ;;
      addmul_amatrix (fopp f1) false l false r s ;;;
      uninit_amatrix s ;;; uninit_amatrix l) ;;;
    uninit_amatrix r)) m Q.
Proof.
  intros HF HQ. pose proof o_k as [Hok1 Hok2].
  assert (HoB : o B = n) by apply Ho.
  apply (wp_for (fun j m1 => mval m1 A (Supd F (o j) 0 0) /\ keeps (inm A) m m1)).
  - split; [|apply keeps_refl]. eapply mval_ext; [exact HF|]. intros p q Hp Hq. unfold Supd.
    bsplit; try reflexivity; lia.
  - intros j m1 Hj [HF1 Hk1].
    destruct (o_j j) as [Hj1 [Hj2 Hj3]]; [lia|lia|].
    apply wp_bind. apply wp_init_sub_amatrix; [lia|lia|]. apply wp_bind.
    apply (wp_for (fun i m2 => mval m2 A (Supd F (o j) (o (j + 1)) (o i)) /\ keeps (inm A) m m2)).
    + split; [|exact Hk1]. eapply mval_ext; [exact HF1|]. intros p q Hp Hq. unfold Supd.
      bsplit; try reflexivity; lia.
    + intros i m2 Hi [HF2 Hk2].
      destruct (o_j i) as [Hi1 [Hi2 Hi3]]; [lia|lia|].
      apply wp_bind. apply wp_init_sub_amatrix; [lia|lia|].
      apply wp_bind. apply wp_init_sub_amatrix; [lia|lia|]. apply wp_bind.
      eapply (wp_addmul_amatrix (fl_ring K L));
        [apply mwf_subm; [exact HW|lia]
        |apply mval_subm; [exact HF2|lia|lia]
        |apply mval_subm; [exact HF2|lia|lia]
        |apply mval_subm; [exact HF2|lia|lia]
        |apply disj_subm; [exact HW|lia|lia|lia]
        |apply disj_subm; [exact HW|lia|lia|lia]
        | | | |cbn; lia|cbn; lia|reflexivity|].
      { intros a Ha. right. apply Hwr. eapply inm_subm; [| |exact Ha]; lia. }
      { intros a Ha. right. apply Hwr. eapply inm_subm; [| |exact Ha]; lia. }
      { intros a Ha. apply Hwr. eapply inm_subm; [| |exact Ha]; lia. }
      cbn [mrows mcols subm tr]. intros m3 Hm3 Hk3.
      apply wp_bind. apply wp_uninit_sub, wp_uninit_sub.
      split; [|eapply keeps_trans; [exact Hk2|]; eapply keeps_subm; [| |exact Hk3]; lia].
      eapply mval_ext; [eapply mval_subm_back; [exact HW|exact HF2| | |exact Hm3|exact Hk3]; lia|].
      intros p q Hp Hq. cbv beta. rewrite Er in Hp. rewrite Ec in Hq. rewrite <- (Nat.add_1_r i).
      destruct ((o i <=? p) && (p <? o i + (o (i + 1) - o i)) && (o j <=? q) && (q <? o j + (o (j + 1) - o j))) eqn:E.
      * assert (Hpq : o i <= p < o (i + 1) /\ o j <= q < o (j + 1)).
        { rewrite !andb_true_iff, !Nat.leb_le, !Nat.ltb_lt in E. lia. }
        assert (E1 : Supd F (o j) (o (j + 1)) (o (i + 1)) p q = Sval F p q).
        { unfold Supd. bsplit; try reflexivity; lia. }
        rewrite E1. replace (o i + (p - o i)) with p by lia. replace (o j + (q - o j)) with q by lia.
        assert (E2 : Supd F (o j) (o (j + 1)) (o i) p q = F p q).
        { unfold Supd. bsplit; try reflexivity; lia. }
        rewrite E2. bsplit; try lia. unfold Sval.
        rewrite (sum_ext ks
          (fun l => Supd F (o j) (o (j + 1)) (o i) p (ko + l)%nat * Supd F (o j) (o (j + 1)) (o i) (ko + l)%nat q)%F
          (fun l => F p (ko + l)%nat * F (ko + l)%nat q)%F); [ring|].
        intros l Hl. f_equal; unfold Supd; bsplit; try reflexivity; lia.
      * assert (Hpq : ~ (o i <= p < o (i + 1) /\ o j <= q < o (j + 1))).
        { intros Hc. rewrite <- not_true_iff_false, !andb_true_iff, !Nat.leb_le, !Nat.ltb_lt in E. apply E. lia. }
        unfold Supd. bsplit; try reflexivity; lia.
    + intros m2 [HF2 Hk2]. apply wp_uninit_sub. split; [|exact Hk2].
      eapply mval_ext; [exact HF2|]. intros p q Hp Hq.
      replace (k + 1 + (B - (k + 1))) with B by lia. rewrite HoB, <- (Nat.add_1_r j).
      unfold Supd. bsplit; try reflexivity; lia.
  - intros m1 [HF1 Hk1]. apply HQ; [|exact Hk1].
    eapply mval_ext; [exact HF1|]. intros p q Hp Hq.
    replace (k + 1 + (B - (k + 1))) with B by lia. rewrite HoB.
    unfold Supd. bsplit; try reflexivity; lia.
Qed.

(** Everything after the factorization of the diagonal block. *)
Lemma wp_lr_block F F1 f m (Q : unit -> mem K -> Prop) :
  mval m A F1 -> lrinv n ko F f ->
  (forall i j, i < n -> j < n -> ~ (ko <= i < ko + ks /\ ko <= j < ko + ks) -> F1 i j = F i j) ->
  lrinv ks ks (fun i j => F1 (ko + i)%nat (ko + j)%nat) (fun i j => F (ko + i)%nat (ko + j)%nat) ->
  (forall i, i < ks -> F1 (ko + i) (ko + i) <> f0) ->
  (forall (F' : nat -> nat -> K) m', mval m' A F' -> keeps (inm A) m m' -> lrinv n (o (k + 1)) F' f ->
     (forall i, i < o (k + 1) -> F' i i = F1 i i) -> Q tt m') ->
  wp R W (lr_block A n B k (subm A ko ks ko ks)) m Q.
Proof.
  intros HF1 HI Hout HD Hpiv HQ. pose proof o_k as [Hok1 Hok2].
  unfold lr_block. cbv zeta. apply wp_bind.
  apply (wp_lr_right F1); [exact HF1|]. intros F2 m2 HF2 Hk2 [HR1 HR2].
  apply wp_bind. apply (wp_lr_left F2); [exact HF2| |].
  { intros i Hi. rewrite HR1 by lia. apply Hpiv, Hi. }
  intros F3 m3 HF3 Hk3 [HL1 HL2]. apply wp_bind. apply wp_uninit_sub.
  apply (wp_lr_trail F3); [exact HF3|]. intros m4 HF4 Hk4.
  eapply HQ; [exact HF4|do 2 (eapply keeps_trans; [eassumption|]); exact Hk4| |].
  2:{ intros i Hi. unfold Supd. bsplit; try lia; rewrite HL1, HR1 by lia; reflexivity. }
  assert (E4 : forall p q, p < n -> q < n -> p < ko + ks \/ q < ko + ks -> Supd F3 n n n p q = F3 p q).
  { intros p q Hp Hq H. unfold Supd. bsplit; try reflexivity; lia. }
  assert (EK : ko + ks = o (k + 1)) by lia.
  eapply eq_rect with (P := fun z => lrinv n z (Supd F3 n n n) f); [|exact EK].
  apply (lrinv_block n ko ks F); [lia|exact HI| | | | |].
  - intros i j Hi Hj H. rewrite E4, HL1, HR1, Hout by lia. reflexivity.
  - intros i j Hi Hj. rewrite (HD i j Hi Hj). f_equal.
    + apply sum_ext. intros l Hl. f_equal; unfold tripart; rewrite E4, HL1, HR1 by lia; reflexivity.
    + bsplit; try reflexivity; lia.
  - intros p q Hp Hq Hq'. rewrite <- (Hout (ko + p) q) by lia. rewrite <- (HR2 p q) by lia.
    apply sum_ext. intros l Hl. rewrite E4, HL1 by lia. f_equal.
    unfold tripart. rewrite E4, HL1, HR1 by lia. reflexivity.
  - intros p q Hq Hp Hp'. rewrite <- (Hout p (ko + q)) by lia. rewrite <- (HR1 p (ko + q)) by lia.
    rewrite <- (HL2 p q) by lia.
    apply sum_ext. intros l Hl. rewrite E4 by lia. f_equal.
    unfold tripart. rewrite E4, HL1 by lia. reflexivity.
  - intros p q Hp Hq Hp' Hq'.
    transitivity (Sval F3 p q). { unfold Supd. bsplit; try reflexivity; lia. }
    unfold Sval. rewrite HL1, HR1, Hout by lia. f_equal.
    apply sum_ext. intros l Hl. rewrite !E4 by lia. reflexivity.
Qed.
End Block.

Lemma lrinv_sub q ko ks p (F F1 f : nat -> nat -> K) :
  lrinv q ko F f -> ko + ks <= q -> p < ks ->
  (forall i j, i < q -> j < q -> ~ (ko <= i < ko + ks /\ ko <= j < ko + ks) -> F1 i j = F i j) ->
  lrinv (p + 1) p (fun i j => F1 (ko + i)%nat (ko + j)%nat) (fun i j => F (ko + i)%nat (ko + j)%nat) ->
  lrinv (ko + p + 1) (ko + p) F1 f.
Proof.
  intros HI Hq Hp Hout HD i j Hi Hj. rewrite (HI i j) by lia.
  rewrite (sum_app (fl_ring K L)).
  rewrite (sum_ext ko (fun k => lo F1 i k * up F1 k j)%F (fun k => lo F i k * up F k j)%F).
  2:{ intros k Hk. unfold tripart. rewrite !(Hout i k), !(Hout k j) by lia. reflexivity. }
  assert (E : ((if (ko <=? i) && (ko <=? j) then F i j else f0) =
     sum p (fun k => lo F1 i (ko + k)%nat * up F1 (ko + k)%nat j)
     + (if ((ko + p)%nat <=? i) && ((ko + p)%nat <=? j) then F1 i j else f0))%F).
  2:{ rewrite E. ring. }
  destruct (Nat.lt_ge_cases i ko) as [Hi1|Hi1].
  { rewrite (sum_0 (fl_ring K L)).
    2:{ intros k Hk. unfold tripart. bsplit; ring. }
    bsplit; ring. }
  destruct (Nat.lt_ge_cases j ko) as [Hj1|Hj1].
  { rewrite (sum_0 (fl_ring K L)).
    2:{ intros k Hk. unfold tripart. bsplit; ring. }
    bsplit; ring. }
  destruct (Nat.leb_spec ko i); [|lia]. destruct (Nat.leb_spec ko j); [|lia]. cbn [andb].
  pose proof (HD (i - ko) (j - ko)) as E. cbv beta in E.
  replace (ko + (i - ko)) with i in E by lia. replace (ko + (j - ko)) with j in E by lia.
  rewrite E by lia. f_equal.
  - apply sum_ext. intros k Hk. unfold tripart. replace (ko + (i - ko)) with i by lia. replace (ko + (j - ko)) with j by lia.
    bsplit; try reflexivity; lia.
  - bsplit; try reflexivity; lia.
Qed.

Lemma wp_lr_blocks R W A n B f : forall cnt k F m (Q : nat -> mem K -> Prop),
  mwf A -> mval m A F -> wrok W (inm A) -> mrows A = n -> mcols A = n -> (N.of_nat n < 2 ^ 32)%N ->
  goodoff n B (blockoff n B) -> k + cnt = B ->
  lrinv n (blockoff n B k) F f -> (forall i, i < blockoff n B k -> F i i <> f0) ->
  (forall r (F' : nat -> nat -> K) m', lrpost n f F' r -> mval m' A F' -> keeps (inm A) m m' -> Q r m') ->
  wp R W (lr_blocks A n B k cnt) m Q.
Proof.
  induction cnt as [|c IH]; intros k F m Q HW HF Hwr Er Ec H32 Ho Hk HI HP HQ; cbn [lr_blocks].
  - apply (HQ 0 F); [|exact HF|apply keeps_refl]. left. replace k with B in * by lia.
    destruct Ho as [_ [E _]]. rewrite E in HI, HP. auto.
  - assert (Hk' : k < B) by lia.
    destruct (o_k n B k Hk' Ho) as [Hok1 Hok2].
    set (ko := blockoff n B k) in *. set (ke := blockoff n B (k + 1)) in *.
    apply wp_bind. apply wp_init_sub_amatrix; [lia|lia|].
    apply wp_bind. eapply (wp_lrdecomp_amatrix L).
    { apply mwf_subm; [exact HW|lia]. }
    { apply mval_subm; [exact HF|lia|lia]. }
    { intros a Ha. apply Hwr. eapply inm_subm; [| |exact Ha]; lia. }
    { reflexivity. }
    { cbn; lia. }
    { cbn; lia. }
    cbn [mrows subm]. intros r G m1 HG HmG HkG.
    assert (HF1 := mval_subm_back m m1 A F G ko (ke - ko) ko (ke - ko) HW HF ltac:(lia) ltac:(lia) HmG HkG).
    match type of HF1 with mval _ _ ?g => set (F1 := g) in HF1 end.
    assert (Hk1 : keeps (inm A) m m1).
    { eapply keeps_subm; [| |exact HkG]; lia. }
    assert (Hout : forall i j, i < n -> j < n -> ~ (ko <= i < ko + (ke - ko) /\ ko <= j < ko + (ke - ko)) -> F1 i j = F i j).
    { intros i j Hi Hj H. unfold F1. bsplit; try reflexivity; lia. }
    assert (Hin : forall i j, i < ke - ko -> j < ke - ko -> F1 (ko + i) (ko + j) = G i j).
    { intros i j Hi Hj. unfold F1. bsplit; try lia. f_equal; lia. }
    destruct HG as [[-> [HGI HGP]]|[p [-> [Hp [HGI [HG0 HGP]]]]]].
    + cbn [Nat.ltb Nat.leb]. apply wp_bind.
      apply (wp_lr_block R W A n B k HW Hwr Er Ec Hk' Ho F F1 f).
      * exact HF1.
      * exact HI.
      * exact Hout.
      * fold ko ke. intros i j Hi Hj. rewrite (HGI i j Hi Hj). f_equal.
        -- apply sum_ext. intros l Hl. f_equal; unfold tripart; rewrite Hin by lia; reflexivity.
        -- bsplit; try reflexivity; lia.
      * fold ko ke. intros i Hi. rewrite Hin by lia. apply HGP, Hi.
      * fold ke. intros F' m' HF' Hk2 HI' HP'.
        eapply (IH (k + 1) F'); try eassumption; try lia.
        { fold ke. intros i Hi. rewrite HP' by exact Hi.
          destruct (Nat.lt_ge_cases i ko) as [Hi'|Hi'].
          - rewrite Hout by lia. apply HP, Hi'.
          - replace i with (ko + (i - ko)) by lia. rewrite Hin by lia. apply HGP. lia. }
        intros r F'' m'' HF'' Hm'' Hk''. eapply HQ; [exact HF''|exact Hm''|].
        do 2 (eapply keeps_trans; [eassumption|]). exact Hk''.
    + destruct (Nat.ltb_spec 0 (p + 1)); [|lia]. apply wp_bind. apply wp_uninit_sub. cbn [wp].
      apply (HQ _ F1); [|exact HF1|exact Hk1]. right. exists (ko + p).
      split; [lia|]. split; [lia|]. split; [|split].
      * eapply lrinv_sub with (ks := ke - ko); [exact HI|lia|exact Hp|exact Hout|].
        intros i j Hi Hj. rewrite (HGI i j Hi Hj). f_equal.
        -- apply sum_ext. intros l Hl. f_equal; unfold tripart; rewrite Hin by lia; reflexivity.
        -- bsplit; try reflexivity; rewrite Hin by lia; reflexivity.
      * rewrite Hin by lia. exact HG0.
      * intros i Hi. destruct (Nat.lt_ge_cases i ko) as [Hi'|Hi'].
        -- rewrite Hout by lia. apply HP, Hi'.
        -- replace i with (ko + (i - ko)) by lia. rewrite Hin by lia. apply HGP. lia.
Qed.

Lemma wp_lrdecomp_blocks_amatrix R W A blocksize f m (Q : nat -> mem K -> Prop) :
  mwf A -> mval m A f -> wrok W (inm A) -> mrows A = mcols A -> 0 < mrows A -> 0 < blocksize ->
  (N.of_nat (mrows A) < 2 ^ 32)%N ->
  (N.of_nat (mrows A) * N.of_nat (mrows A / blocksize) < 2 ^ 32)%N ->
  (forall r (F : nat -> nat -> K) m', lrpost (mrows A) f F r -> mval m' A F -> keeps (inm A) m m' -> Q r m') ->
  wp R W (lrdecomp_blocks_amatrix A blocksize) m Q.
Proof.
  intros HW HF Hwr E Hn Hb H32 Hov HQ. unfold lrdecomp_blocks_amatrix. wstep.
  destruct (Nat.leb_spec (mrows A) blocksize) as [Hle|Hlt].
  - eapply (wp_lrdecomp_amatrix L); eauto.
  - destruct (Nat.eqb_spec blocksize 0); [lia|].
    assert (HB : 0 < mrows A / blocksize) by (apply Nat.div_str_pos; lia).
    assert (HBn : mrows A / blocksize <= mrows A) by (apply Nat.div_le_upper_bound; nia).
    eapply wp_lr_blocks with (f := f); try eassumption; try reflexivity; try (symmetry; exact E).
    + apply blockoff_good; assumption.
    + destruct (blockoff_good _ _ HB HBn Hov) as [E0 _]. rewrite E0. apply (lrinv_0 L).
    + destruct (blockoff_good _ _ HB HBn Hov) as [E0 _]. rewrite E0. intros i Hi. lia.
Qed.
End LR3.
