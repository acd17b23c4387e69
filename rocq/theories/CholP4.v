(** * The blocked Cholesky decomposition *)
From Coq Require Import Arith NArith Lia List Bool Ring.
From Verif Require Import Fld Prog View Spec Loop Avector AvectorP Amatrix AmatrixP Factor FactorSpec Line
  FactorP FactorP2 FactorP3 FactorP4 Lr LrP LrP2 LrP3 Chol CholSpec CholP CholP2 CholP3.

Section CHOL4.
Context {K : fops} (L : field_laws K) (O : rops K) (H : rlaws O).
Add Ring KringC4 : (rl_ring K (fl_ring K L)).
Implicit Types (m : mem K) (R W : addr -> Prop) (A : mat).
Notation low := (intri true false).
Notation lo := (tripart true false).
Notation one := (fun _ : nat => f1).

Lemma pval_subm_back m m' A f g ro n co :
  mwf A -> mval m A f -> ro + n <= mrows A -> co + n <= mcols A ->
  pval m' (subm A ro n co n) low g ->
  keeps (inp (subm A ro n co n) low) m m' ->
  mval m' A (fun i j => if (ro <=? i) && (i <? ro + n) && (co <=? j) && (j <? co + n) && (j - co <=? i - ro)
                        then g (i - ro) (j - co) else f i j).
Proof.
  intros Hw HF Hr Hc Hg [Hn Hk] i j Hi Hj.
  destruct ((ro <=? i) && (i <? ro + n) && (co <=? j) && (j <? co + n) && (j - co <=? i - ro)) eqn:E.
  - rewrite !andb_true_iff, !Nat.leb_le, !Nat.ltb_lt in E.
    specialize (Hg (i - ro) (j - co)). rewrite ma_subm in Hg. cbn in Hg.
    replace (ro + (i - ro)) with i in Hg by lia. replace (co + (j - co)) with j in Hg by lia.
    apply Hg; try lia. unfold intri. destruct (Nat.eq_dec (i - ro) (j - co)); [left; auto|right; lia].
  - rewrite Hk; [apply HF; assumption|]. intros (k & l & Hk' & Hl' & Ho & Ea).
    rewrite ma_subm in Ea. cbn in Hk', Hl'. apply ma_inj in Ea; [|exact Hw|lia|lia].
    rewrite <- not_true_iff_false, !andb_true_iff, !Nat.leb_le, !Nat.ltb_lt in E. apply E.
    destruct Ho as [[Ho _]|Ho]; lia.
Qed.

(** One block step in terms of entries. *)
Lemma sinv_block n ko ks (F F' f : nat -> nat -> K) :
  ko + ks <= n ->
  sinv n ko (lo F) one F f ->
  (forall i j, i < n -> j < ko -> j <= i -> F' i j = F i j) ->
  sinv ks ks (lo (fun i j => F' (ko + i)%nat (ko + j)%nat)) one
    (fun i j => F' (ko + i)%nat (ko + j)%nat) (fun i j => F (ko + i)%nat (ko + j)%nat) ->
  (forall p q, q < ks -> ko + ks <= p -> p < n ->
     sum ks (fun k => F' p (ko + k)%nat * fconj (lo (fun i j => F' (ko + i)%nat (ko + j)%nat) q k))%F = F p (ko + q)%nat) ->
  (forall p q, ko + ks <= q -> q <= p -> p < n ->
     F' p q = (F p q - sum ks (fun k => F' p (ko + k)%nat * fconj (F' q (ko + k)%nat)))%F) ->
  sinv n (ko + ks) (lo F') one F' f.
Proof.
  intros Hn HI Hold HD HL HS i j Hi Hj. rewrite (HI i j Hi Hj).
  rewrite (sum_app (fl_ring K L)).
  rewrite (sum_ext ko (fun k => lo F' i k * f1 * fconj (lo F' j k))%F (fun k => lo F i k * f1 * fconj (lo F j k))%F).
  2:{ intros k Hk. f_equal; [|f_equal].
      - unfold tripart. bsplit; try reflexivity; rewrite Hold by lia; reflexivity.
      - unfold tripart. bsplit; try reflexivity; rewrite Hold by lia; reflexivity. }
  assert (E : ((if ko <=? j then F i j else f0) =
     sum ks (fun k => lo F' i (ko + k)%nat * f1 * fconj (lo F' j (ko + k)%nat))
     + (if ((ko + ks)%nat <=? j) then F' i j else f0))%F).
  2:{ rewrite E. ring. }
  destruct (Nat.lt_ge_cases j ko) as [Hj1|Hj1].
  { rewrite (sum_0 (fl_ring K L)).
    2:{ intros k Hk. replace (lo F' j (ko + k)) with (@f0 K) by (unfold tripart; bsplit; try reflexivity; lia).
        rewrite (fconj_0 (fl_ring K L)). ring. }
    bsplit; ring. }
  destruct (Nat.leb_spec ko j); [|lia].
  destruct (Nat.leb_spec (ko + ks) j) as [Hj2|Hj2].
  - rewrite (HS i j) by lia.
    rewrite (sum_ext ks (fun k => lo F' i (ko + k)%nat * f1 * fconj (lo F' j (ko + k)%nat))%F
      (fun k => F' i (ko + k)%nat * fconj (F' j (ko + k)%nat))%F).
    2:{ intros k Hk. unfold tripart. bsplit; ring. }
    ring.
  - destruct (Nat.lt_ge_cases i (ko + ks)) as [Hi2|Hi2].
    + pose proof (HD (i - ko) (j - ko)) as E. cbv beta in E.
      replace (ko + (i - ko)) with i in E by lia. replace (ko + (j - ko)) with j in E by lia.
      rewrite E by lia. bsplit; try lia. f_equal.
      apply sum_ext. intros k Hk. f_equal; [|f_equal]; unfold tripart;
        replace (ko + (i - ko)) with i by lia; replace (ko + (j - ko)) with j by lia;
        bsplit; try reflexivity; lia.
    + replace (F i j) with (F i (ko + (j - ko))) by (f_equal; lia).
      rewrite <- (HL i (j - ko)) by lia.
      rewrite (sum_ext ks (fun k => lo F' i (ko + k)%nat * f1 * fconj (lo F' j (ko + k)%nat))%F
         (fun k => F' i (ko + k)%nat * fconj (lo (fun i j => F' (ko + i)%nat (ko + j)%nat) (j - ko)%nat k))%F).
      2:{ intros k Hk. replace (lo (fun i j => F' (ko + i)%nat (ko + j)%nat) (j - ko)%nat k) with (lo F' j (ko + k)).
          - replace (lo F' i (ko + k)) with (F' i (ko + k)); [ring|]. unfold tripart. bsplit; reflexivity.
          - unfold tripart. replace (ko + (j - ko)) with j by lia. bsplit; try reflexivity; lia. }
      ring.
Qed.

Section Block.
Variables (R W : addr -> Prop) (A : mat) (n B k : nat).
Hypothesis HW : mwf A.
Hypothesis Hwr : wrok W (inm A).
Hypothesis Er : mrows A = n.
Hypothesis Ec : mcols A = n.
Hypothesis Hk : k < B.
Notation o := (blockoff n B).
Hypothesis Ho : goodoff n B o.
Notation ko := (o k).
Notation ks := (o (k + 1) - o k).

(** The column of blocks below the diagonal block. *)
Definition CLdone (F F2 : nat -> nat -> K) (io : nat) : Prop :=
  (forall p q, p < n -> q < n -> ~ (ko <= q < ko + ks /\ ko + ks <= p < io) -> F2 p q = F p q) /\
  (forall p q, q < ks -> ko + ks <= p -> p < io ->
     sum ks (fun l => F2 p (ko + l)%nat * fconj (lo (fun i j => F (ko + i)%nat (ko + j)%nat) q l))%F = F p (ko + q)).

Lemma wp_chol_left F m (Q : unit -> mem K -> Prop) :
  mval m A F -> (forall i, i < ks -> F (ko + i) (ko + i) <> f0) ->
  (forall (F2 : nat -> nat -> K) m', mval m' A F2 -> keeps (inm A) m m' -> CLdone F F2 n -> Q tt m') ->
  wp R W (for_ (k + 1) (B - (k + 1)) (fun i =>
    l <- init_sub_amatrix A (o (i + 1) - o i) (o i) ks ko ;;
    triangularsolve_amatrix true false false (subm A ko ks ko ks) true l ;;;
    uninit_amatrix l)) m Q.
Proof.
  intros HF Hpiv HQ. destruct (o_k n B k Hk Ho) as [Hok1 Hok2].
  apply (wp_for (fun j m1 => exists F2, mval m1 A F2 /\ keeps (inm A) m m1 /\ CLdone F F2 (o j))).
  - exists F. split; [exact HF|]. split; [apply keeps_refl|]. split; [reflexivity|].
    intros p q Hp Hq Hq'. lia.
  - intros j m1 Hj [F2 [HF2 [Hk2 [HD1 HD2]]]].
    destruct (o_j A n B k Er Ec Hk Ho j) as [Hj1 [Hj2 Hj3]]; [lia|lia|].
    apply wp_bind. apply wp_init_sub_amatrix; [lia|lia|].
    apply wp_bind.
    eapply (wp_triangularsolve_amatrix L) with (f := fun i j => F2 (ko + i)%nat (ko + j)%nat);
      [apply mwf_subm; [exact HW|lia]
      |apply mval_pval, mval_subm; [exact HF2|lia|lia]
      |apply mval_subm; [exact HF2|lia|lia]
      |apply disj_inp, disj_subm; [exact HW|lia|lia|lia]
      | | |unfold lnn; cbn; lia| |].
    { intros a Ha. right. apply Hwr. eapply inm_subm; [| |eapply inp_inm, Ha]; lia. }
    { intros a Ha. apply Hwr. eapply inm_subm; [| |exact Ha]; lia. }
    { right. cbn [mrows mcols subm]. rewrite Nat.min_id. intros i Hi. rewrite HD1 by lia. apply Hpiv, Hi. }
    unfold lnn, nln. cbn [mrows mcols subm]. rewrite Nat.min_id. intros Y m2 HY _ HmY HkY.
    apply wp_uninit_sub.
    eexists. split; [eapply mval_subm_back; [exact HW|exact HF2| | |exact HmY|exact HkY]; lia|].
    split; [eapply keeps_trans; [exact Hk2|]; eapply keeps_subm; [| |exact HkY]; lia|].
    rewrite <- (Nat.add_1_r j). split.
    + intros p q Hp Hq Hn. rewrite <- (HD1 p q) by lia. bsplit; try reflexivity; lia.
    + intros p q Hp Hq Hq'.
      destruct (Nat.lt_ge_cases p (o j)) as [Hqj|Hqj].
      * rewrite <- (HD2 p q) by lia. apply sum_ext. intros l Hl. f_equal. bsplit; try reflexivity; lia.
      * rewrite <- (HD1 p (ko + q)) by lia.
        specialize (HY q (p - o j)). unfold mmul in HY. cbn [tr] in HY.
        replace (o j + (p - o j)) with p in HY by lia.
        apply (conj_inj L). rewrite <- HY by lia. rewrite (sum_conj (fl_ring K L)).
        apply sum_ext. intros l Hl. rewrite (rl_conj_mul K (fl_ring K L)), (rl_conj_conj K (fl_ring K L)).
        replace (lo (fun i j0 => F (ko + i)%nat (ko + j0)%nat) q l)
          with (lo (fun i j0 => F2 (ko + i)%nat (ko + j0)%nat) q l).
        2:{ unfold tripart. rewrite (HD1 (ko + q) (ko + l)) by lia. reflexivity. }
        replace (ko + l - ko) with l by lia.
        bsplit; try lia. ring.
  - intros m1 [F2 [HF2 [Hk2 HD]]]. eapply HQ; [exact HF2|exact Hk2|].
    replace (k + 1 + (B - (k + 1))) with B in HD by lia. destruct Ho as [_ [E _]]. rewrite E in HD. exact HD.
Qed.

(** The trailing blocks on and below the diagonal. *)
Definition CSval (F : nat -> nat -> K) (p q : nat) : K :=
  (F p q - sum ks (fun l => F p (ko + l)%nat * fconj (F q (ko + l)%nat)))%F.
Definition CSdone (F F2 : nat -> nat -> K) (jo : nat) : Prop :=
  (forall p q, p < n -> q < n -> p < ko + ks \/ q < ko + ks \/ jo <= q -> F2 p q = F p q) /\
  (forall p q, p < n -> q < n -> q <= p -> ko + ks <= q -> q < jo -> F2 p q = CSval F p q).

Lemma wp_chol_trail F m (Q : unit -> mem K -> Prop) :
  mval m A F ->
  (forall (F2 : nat -> nat -> K) m', mval m' A F2 -> keeps (inm A) m m' -> CSdone F F2 n -> Q tt m') ->
  wp R W (for_ (k + 1) (B - (k + 1)) (fun j =>
    r <- init_sub_amatrix A (o (j + 1) - o j) (o j) ks ko ;;
    for_ j (B - j) (fun i =>
      l <- init_sub_amatrix A (o (i + 1) - o i) (o i) ks ko ;;
      s <- init_sub_amatrix A (o (i + 1) - o i) (o i) (o (j + 1) - o j) (o j) ;;
      addmul_amatrix (fopp f1) false l true r s ;;;
      uninit_amatrix s ;;; uninit_amatrix l) ;;;
    uninit_amatrix r)) m Q.
Proof.
  intros HF HQ. destruct (o_k n B k Hk Ho) as [Hok1 Hok2].
  assert (HoB : o B = n) by apply Ho.
  apply (wp_for (fun j m1 => exists F2, mval m1 A F2 /\ keeps (inm A) m m1 /\ CSdone F F2 (o j))).
  - exists F. split; [exact HF|]. split; [apply keeps_refl|]. split; [reflexivity|].
    intros p q Hp Hq Hpq Hq1 Hq2. lia.
  - intros j m1 Hj [F2 [HF2 [Hk2 [HD1 HD2]]]].
    destruct (o_j A n B k Er Ec Hk Ho j) as [Hj1 [Hj2 Hj3]]; [lia|lia|].
    apply wp_bind. apply wp_init_sub_amatrix; [lia|lia|]. apply wp_bind.
    set (G := fun i p q => if (o j <=? q) && (q <? o (j + 1)) && (o j <=? p) && (p <? o i) then CSval F p q else F2 p q).
    apply (wp_for (fun i m2 => mval m2 A (G i) /\ keeps (inm A) m m2)).
    + split; [|exact Hk2]. eapply mval_ext; [exact HF2|]. intros p q Hp Hq. unfold G.
      bsplit; try reflexivity; lia.
    + intros i m2 Hi [HF3 Hk3].
      destruct (o_j A n B k Er Ec Hk Ho i) as [Hi1 [Hi2 Hi3]]; [lia|lia|].
      assert (Hji : o j <= o i) by (apply (goodoff_le n B o Ho); lia).
      assert (Hji' : i <> j -> o (j + 1) <= o i) by (intros; apply (goodoff_le n B o Ho); lia).
      apply wp_bind. apply wp_init_sub_amatrix; [lia|lia|].
      apply wp_bind. apply wp_init_sub_amatrix; [lia|lia|]. apply wp_bind.
      eapply (wp_addmul_amatrix (fl_ring K L));
        [apply mwf_subm; [exact HW|lia]
        |apply mval_subm; [exact HF3|lia|lia]
        |apply mval_subm; [exact HF3|lia|lia]
        |apply mval_subm; [exact HF3|lia|lia]
        |apply disj_subm; [exact HW|lia|lia|lia]
        |apply disj_subm; [exact HW|lia|lia|lia]
        | | | |cbn; lia|cbn; lia|reflexivity|].
      { intros a Ha. right. apply Hwr. eapply inm_subm; [| |exact Ha]; lia. }
      { intros a Ha. right. apply Hwr. eapply inm_subm; [| |exact Ha]; lia. }
      { intros a Ha. apply Hwr. eapply inm_subm; [| |exact Ha]; lia. }
      cbn [mrows mcols subm tr]. intros m3 Hm3 Hk4.
      apply wp_bind. apply wp_uninit_sub, wp_uninit_sub.
      split; [|eapply keeps_trans; [exact Hk3|]; eapply keeps_subm; [| |exact Hk4]; lia].
      eapply mval_ext; [eapply mval_subm_back; [exact HW|exact HF3| | |exact Hm3|exact Hk4]; lia|].
      intros p q Hp Hq. cbv beta. rewrite Er in Hp. rewrite Ec in Hq. rewrite <- (Nat.add_1_r i).
      destruct ((o i <=? p) && (p <? o i + (o (i + 1) - o i)) && (o j <=? q) && (q <? o j + (o (j + 1) - o j))) eqn:E.
      * assert (Hpq : o i <= p < o (i + 1) /\ o j <= q < o (j + 1)).
        { rewrite !andb_true_iff, !Nat.leb_le, !Nat.ltb_lt in E. lia. }
        assert (E1 : G (i + 1) p q = CSval F p q).
        { unfold G. bsplit; try reflexivity; lia. }
        rewrite E1. replace (o i + (p - o i)) with p by lia. replace (o j + (q - o j)) with q by lia.
        assert (E2 : G i p q = F p q).
        { unfold G. rewrite HD1 by lia. bsplit; try reflexivity; lia. }
        rewrite E2. bsplit; try lia. unfold CSval.
        rewrite (sum_ext ks
          (fun l => G i p (ko + l)%nat * fconj (G i q (ko + l)%nat))%F
          (fun l => F p (ko + l)%nat * fconj (F q (ko + l)%nat))%F); [ring|].
        intros l Hl. unfold G. f_equal; [|f_equal]; (bsplit; try lia; apply HD1; lia).
      * assert (Hpq : ~ (o i <= p < o (i + 1) /\ o j <= q < o (j + 1))).
        { intros Hc. rewrite <- not_true_iff_false, !andb_true_iff, !Nat.leb_le, !Nat.ltb_lt in E. apply E. lia. }
        unfold G. bsplit; try reflexivity; lia.
    + intros m2 [HF3 Hk3]. apply wp_uninit_sub. eexists. split; [exact HF3|]. split; [exact Hk3|].
      replace (j + (B - j)) with B by lia. rewrite <- (Nat.add_1_r j). split.
      * intros p q Hp Hq Hpq. unfold G. rewrite HoB. rewrite <- (HD1 p q) by lia. bsplit; try reflexivity; lia.
      * intros p q Hp Hq Hpq Hq1 Hq2. unfold G. rewrite HoB.
        destruct (Nat.lt_ge_cases q (o j)) as [Hqj|Hqj].
        -- rewrite <- (HD2 p q) by lia. bsplit; try reflexivity; lia.
        -- bsplit; try reflexivity; lia.
  - intros m1 [F2 [HF2 [Hk2 HD]]]. eapply HQ; [exact HF2|exact Hk2|].
    replace (k + 1 + (B - (k + 1))) with B in HD by lia. rewrite HoB in HD. exact HD.
Qed.

(** Everything after the factorization of the diagonal block. *)
Lemma wp_chol_block F F1 f m (Q : unit -> mem K -> Prop) :
  mval m A F1 -> sinv n ko (lo F) one F f ->
  (forall i j, i < n -> j < n -> ~ (ko <= i < ko + ks /\ ko <= j < ko + ks) -> F1 i j = F i j) ->
  sinv ks ks (lo (fun i j => F1 (ko + i)%nat (ko + j)%nat)) one
    (fun i j => F1 (ko + i)%nat (ko + j)%nat) (fun i j => F (ko + i)%nat (ko + j)%nat) ->
  (forall i, i < ks -> F1 (ko + i) (ko + i) <> f0) ->
  (forall (F' : nat -> nat -> K) m', mval m' A F' -> keeps (inm A) m m' ->
     sinv n (o (k + 1)) (lo F') one F' f ->
     (forall i, i < o (k + 1) -> F' i i = F1 i i) -> Q tt m') ->
  wp R W (chol_block A n B k (subm A ko ks ko ks)) m Q.
Proof.
  intros HF1 HI Hout HD Hpiv HQ. destruct (o_k n B k Hk Ho) as [Hok1 Hok2].
  unfold chol_block. cbv zeta. apply wp_bind.
  apply (wp_chol_left F1); [exact HF1|exact Hpiv|].
  intros F3 m3 HF3 Hk3 [HL1 HL2]. apply wp_bind. apply wp_uninit_sub.
  apply (wp_chol_trail F3); [exact HF3|]. intros F4 m4 HF4 Hk4 [HS1 HS2].
  eapply HQ; [exact HF4|eapply keeps_trans; [eassumption|]; exact Hk4| |].
  2:{ intros i Hi. rewrite HS1, HL1 by lia; reflexivity. }
  assert (EK : ko + ks = o (k + 1)) by lia.
  eapply eq_rect with (P := fun z => sinv n z (lo F4) one F4 f); [|exact EK].
  apply (sinv_block n ko ks F); [lia|exact HI| | | |].
  - intros i j Hi Hj Hij. rewrite HS1, HL1, Hout by lia. reflexivity.
  - intros i j Hi Hj. rewrite (HD i j Hi Hj). f_equal.
    + apply sum_ext. intros l Hl. f_equal; [|f_equal]; unfold tripart; rewrite HS1, HL1 by lia; reflexivity.
    + bsplit; try reflexivity; lia.
  - intros p q Hq Hp Hp'. rewrite <- (Hout p (ko + q)) by lia.
    rewrite <- (HL2 p q) by lia.
    apply sum_ext. intros l Hl. rewrite HS1 by lia. f_equal. f_equal.
    unfold tripart. rewrite HS1, HL1 by lia. reflexivity.
  - intros p q Hp Hq Hp'. rewrite HS2 by lia.
    unfold CSval. rewrite HL1, Hout by lia. f_equal.
    apply sum_ext. intros l Hl. rewrite !HS1 by lia. reflexivity.
Qed.
End Block.

Lemma sinv_sub q ko ks p (F F1 f : nat -> nat -> K) :
  sinv q ko (lo F) one F f -> ko + ks <= q -> p < ks ->
  (forall i j, i < q -> j < q -> ~ (ko <= i < ko + ks /\ ko <= j < ko + ks) -> F1 i j = F i j) ->
  sinv (p + 1) p (lo (fun i j => F1 (ko + i)%nat (ko + j)%nat)) one
    (fun i j => F1 (ko + i)%nat (ko + j)%nat) (fun i j => F (ko + i)%nat (ko + j)%nat) ->
  sinv (ko + p + 1) (ko + p) (lo F1) one F1 f.
Proof.
  intros HI Hq Hp Hout HD i j Hi Hj. rewrite (HI i j) by lia.
  rewrite (sum_app (fl_ring K L)).
  rewrite (sum_ext ko (fun k => lo F1 i k * f1 * fconj (lo F1 j k))%F (fun k => lo F i k * f1 * fconj (lo F j k))%F).
  2:{ intros k Hk. unfold tripart. rewrite !(Hout i k), !(Hout j k) by lia. reflexivity. }
  assert (E : ((if ko <=? j then F i j else f0) =
     sum p (fun k => lo F1 i (ko + k)%nat * f1 * fconj (lo F1 j (ko + k)%nat))
     + (if (ko + p)%nat <=? j then F1 i j else f0))%F).
  2:{ rewrite E. ring. }
  destruct (Nat.lt_ge_cases j ko) as [Hj1|Hj1].
  { rewrite (sum_0 (fl_ring K L)).
    2:{ intros k Hk. replace (lo F1 j (ko + k)) with (@f0 K) by (unfold tripart; bsplit; try reflexivity; lia).
        rewrite (fconj_0 (fl_ring K L)). ring. }
    bsplit; ring. }
  destruct (Nat.leb_spec ko j); [|lia].
  pose proof (HD (i - ko) (j - ko)) as E. cbv beta in E.
  replace (ko + (i - ko)) with i in E by lia. replace (ko + (j - ko)) with j in E by lia.
  rewrite E by lia. f_equal.
  - apply sum_ext. intros k Hk. f_equal; [|f_equal]; unfold tripart; replace (ko + (i - ko)) with i by lia; replace (ko + (j - ko)) with j by lia;
    bsplit; try reflexivity; lia.
  - bsplit; try reflexivity; lia.
Qed.

Lemma wp_chol_blocks R W A n B f : forall cnt k F m (Q : nat -> mem K -> Prop),
  mwf A -> mval m A F -> wrok W (inm A) -> mrows A = n -> mcols A = n -> (N.of_nat n < 2 ^ 32)%N ->
  goodoff n B (blockoff n B) -> k + cnt = B ->
  (forall j, j < n -> fconj (f j j) = f j j) ->
  sinv n (blockoff n B k) (lo F) one F f ->
  (forall i, i < blockoff n B k -> nonpos O (F i i) = false /\ fconj (F i i) = F i i) ->
  (forall r (F' : nat -> nat -> K) m', cholpost O n f F' r -> mval m' A F' -> keeps (inm A) m m' -> Q r m') ->
  wp R W (chol_blocks O A n B k cnt) m Q.
Proof.
  induction cnt as [|c IH]; intros k F m Q HW HF Hwr Er Ec H32 Ho Hk Hre HI HP HQ; cbn [chol_blocks].
  - apply (HQ 0 F); [|exact HF|apply keeps_refl]. left. replace k with B in * by lia.
    destruct Ho as [_ [E _]]. rewrite E in HI, HP. auto.
  - assert (Hk' : k < B) by lia.
    destruct (o_k n B k Hk' Ho) as [Hok1 Hok2].
    set (ko := blockoff n B k) in *. set (ke := blockoff n B (k + 1)) in *.
    apply wp_bind. apply wp_init_sub_amatrix; [lia|lia|].
    apply wp_bind. eapply (wp_choldecomp_amatrix L O H).
    { apply mwf_subm; [exact HW|lia]. }
    { apply mval_pval, mval_subm; [exact HF|lia|lia]. }
    { intros a Ha. apply Hwr. eapply inm_subm; [| |eapply inp_inm, Ha]; lia. }
    { reflexivity. }
    { cbn; lia. }
    { cbn; lia. }
    { cbn [mrows subm]. intros j Hj. eapply (sinv_real L); [exact HI|exact Hre|intros; apply (one_real L)|lia|lia]. }
    cbn [mrows subm]. intros r G m1 HG HmG HkG.
    assert (HF1 := pval_subm_back m m1 A F G ko (ke - ko) ko HW HF ltac:(lia) ltac:(lia) HmG HkG).
    match type of HF1 with mval _ _ ?g => set (F1 := g) in HF1 end.
    assert (Hk1 : keeps (inm A) m m1).
    { eapply keeps_subm with (roff := ko) (rows := ke - ko) (coff := ko) (cols := ke - ko); [lia|lia|].
      eapply keeps_mono; [|exact HkG]. intros a. apply inp_inm. }
    assert (Hout : forall i j, i < n -> j < n -> ~ (ko <= i < ko + (ke - ko) /\ ko <= j < ko + (ke - ko)) -> F1 i j = F i j).
    { intros i j Hi Hj Hc. unfold F1. bsplit; try reflexivity; lia. }
    assert (Hin : forall i j, i < ke - ko -> j <= i -> F1 (ko + i) (ko + j) = G i j).
    { intros i j Hi Hj. unfold F1. bsplit; try lia. f_equal; lia. }
    assert (Hlo : forall i j, i < ke - ko -> lo (fun i j => F1 (ko + i)%nat (ko + j)%nat) i j = lo G i j).
    { intros i j Hi. unfold tripart. bsplit; try reflexivity; rewrite Hin by lia; reflexivity. }
    destruct HG as [[-> [HGI HGP]]|[p [-> [Hp [HGI [HG0 [HGr HGP]]]]]]].
    + cbn [Nat.ltb Nat.leb]. apply wp_bind.
      apply (wp_chol_block R W A n B k HW Hwr Er Ec Hk' Ho F F1 f).
      * exact HF1.
      * exact HI.
      * exact Hout.
      * fold ko ke. intros i j Hi Hj. rewrite (HGI i j Hi Hj). f_equal.
        -- apply sum_ext. intros l Hl. rewrite !Hlo by lia. reflexivity.
        -- bsplit; try reflexivity; lia.
      * fold ko ke. intros i Hi. rewrite Hin by lia. apply (pos_n0 O H), HGP, Hi.
      * fold ke. intros F' m' HF' Hk2 HI' HP'.
        eapply (IH (k + 1) F'); try eassumption; try lia.
        { fold ke. intros i Hi. rewrite HP' by exact Hi.
          destruct (Nat.lt_ge_cases i ko) as [Hi'|Hi'].
          - rewrite Hout by lia. apply HP, Hi'.
          - replace i with (ko + (i - ko)) by lia. rewrite Hin by lia. apply HGP. lia. }
        intros r F'' m'' HF'' Hm'' Hk''. eapply HQ; [exact HF''|exact Hm''|].
        do 2 (eapply keeps_trans; [eassumption|]). exact Hk''.
    + destruct (Nat.ltb_spec 0 (p + 1)); [|lia]. apply wp_bind. apply wp_uninit_sub. cbn [wp].
      apply (HQ _ F1); [|exact HF1|exact Hk1]. right. exists (ko + p).
      split; [lia|]. split; [lia|]. split; [|split; [|split]].
      * eapply sinv_sub with (ks := ke - ko); [exact HI|lia|exact Hp|exact Hout|].
        intros i j Hi Hj. rewrite (HGI i j Hi Hj). f_equal.
        -- apply sum_ext. intros l Hl. rewrite !Hlo by lia. reflexivity.
        -- bsplit; try reflexivity; rewrite Hin by lia; reflexivity.
      * rewrite Hin by lia. exact HG0.
      * rewrite Hin by lia. exact HGr.
      * intros i Hi. destruct (Nat.lt_ge_cases i ko) as [Hi'|Hi'].
        -- rewrite Hout by lia. apply HP, Hi'.
        -- replace i with (ko + (i - ko)) by lia. rewrite Hin by lia. apply HGP. lia.
Qed.

Lemma wp_choldecomp_blocks_amatrix R W A blocksize f m (Q : nat -> mem K -> Prop) :
  mwf A -> mval m A f -> wrok W (inm A) -> mrows A = mcols A -> 0 < mrows A -> 0 < blocksize ->
  (N.of_nat (mrows A) < 2 ^ 32)%N ->
  (N.of_nat (mrows A) * N.of_nat (mrows A / blocksize) < 2 ^ 32)%N ->
  (forall j, j < mrows A -> fconj (f j j) = f j j) ->
  (forall r (F : nat -> nat -> K) m', cholpost O (mrows A) f F r -> pval m' A low F ->
     keeps (inm A) m m' -> Q r m') ->
  wp R W (choldecomp_blocks_amatrix O A blocksize) m Q.
Proof.
  intros HW HF Hwr E Hn Hb H32 Hov Hre HQ. unfold choldecomp_blocks_amatrix. wstep.
  destruct (Nat.leb_spec (mrows A) blocksize) as [Hle|Hlt].
  - eapply (wp_choldecomp_amatrix L O H); eauto.
    + apply mval_pval, HF.
    + intros a Ha. apply Hwr. eapply inp_inm, Ha.
    + intros r F m' HP HF' Hk. eapply HQ; eauto. eapply keeps_mono; [|exact Hk]. intros a. apply inp_inm.
  - destruct (Nat.eqb_spec blocksize 0); [lia|].
    assert (HB : 0 < mrows A / blocksize) by (apply Nat.div_str_pos; lia).
    assert (HBn : mrows A / blocksize <= mrows A) by (apply Nat.div_le_upper_bound; nia).
    eapply wp_chol_blocks with (f := f); try eassumption; try reflexivity; try (symmetry; exact E).
    + apply blockoff_good; assumption.
    + destruct (blockoff_good _ _ HB HBn Hov) as [E0 _]. rewrite E0. apply (sinv_0 L).
    + destruct (blockoff_good _ _ HB HBn Hov) as [E0 _]. rewrite E0. intros i Hi. lia.
    + intros r F m' HP HF' Hk. eapply HQ; eauto. apply mval_pval, HF'.
Qed.
End CHOL4.
