(** * Solving with the QR decomposition *)
From Coq Require Import Arith NArith Lia List Bool Ring.
From Verif Require Import Fld Prog View Spec Loop Line Avector Amatrix AvectorP AmatrixP AmatrixP2 Factor FactorSpec FactorP FactorP2 FactorP3 FactorP4 LrP LrP2 Chol CholSpec Qr QrSpec QrP QrP2 QrP3 QrP4 QrP7.

Section QRP8.
Context {K : fops} (L : field_laws K).
Notation RL := (fl_ring K L).
Add Ring KringQ8 : (rl_ring K (fl_ring K L)).
Implicit Types (m : mem K) (R W : addr -> Prop) (A X : mat) (F G f E M Q : nat -> nat -> K) (t y w g b z : nat -> K).

(** ** Expanding the unitary factor *)
Lemma qmat_col n F t k i j : j < k -> j < n -> qmat n F t (S k) i j = qmat n F t k i j.
Proof.
  intros Hk Hn. cbn [qmat]. unfold mmul. rewrite (sum_single RL n j); [|exact Hn|].
  - unfold rmat, idf, rvec at 2. rewrite Nat.eqb_refl. destruct (Nat.ltb_spec j k); [|lia]. rewrite (fconj_0 RL). ring.
  - intros l Hl Hne. unfold rmat, idf, rvec at 2. destruct (Nat.eqb_spec l j); [contradiction|].
    destruct (Nat.ltb_spec j k); [|lia]. rewrite (fconj_0 RL). ring.
Qed.
Lemma qmat_cols n F t r d i j : j < r -> j < n -> qmat n F t (r + d) i j = qmat n F t r i j.
Proof.
  intros Hr Hn. induction d as [|d IH]; [rewrite Nat.add_0_r; reflexivity|].
  rewrite Nat.add_succ_r, qmat_col by lia. exact IH.
Qed.

Lemma refl_e n F k (beta : K) j i : j < k -> j < n -> refl_line n F k beta (fun l => idf l j) i = idf i j.
Proof.
  intros Hk Hn. unfold refl_line. destruct (Nat.ltb_spec i n); [|reflexivity].
  assert (E : dot n (rvec F k) (fun l => idf l j) = f0).
  { apply (sum_0 RL). intros l Hl. unfold rvec, idf. bsplit; try lia; rewrite ?(fconj_0 RL); ring. }
  rewrite E. ring.
Qed.

Definition sel (X : mat) (n : nat) : mat := Mat (mblk X) (moff X) (mld X) n (mcols X) (mown X).

Lemma wp_qrexpand R W A tau q F t m (Q : unit -> mem K -> Prop) :
  let n := mrows A in
  let r := Nat.min (Nat.min n (mcols A)) (vdim tau) in
  mwf q -> malloc m q -> pval m A below F -> tval m tau r t -> n <= mrows q -> mcols q <= n ->
  disj (inp A below) (inm q) -> disj (inv tau) (inm q) ->
  rdok R W (inp A below) -> rdok R W (inv tau) -> wrok W (inm q) ->
  (forall m', mval m' (sel q n) (qmat n F t r) -> keeps (inm (sel q n)) m m' -> Q tt m') ->
  wp R W (qrexpand_amatrix A tau q) m Q.
Proof.
  intros n r Hwf Hq HA Ht Hn Hc Hd Hdt HrA Hrt Hw HQ. unfold qrexpand_amatrix. fold n.
  set (s := Nat.min (Nat.min (mcols q) (vdim tau)) (Nat.min n (mcols A))).
  assert (Hsr : s <= r) by (unfold s, r; lia). assert (Hst : s <= vdim tau) by (unfold s; lia).
  assert (Hsn : s <= n) by (unfold s; lia). assert (HsA : s <= mcols A) by (unfold s; lia).
  assert (Hsq : s <= mcols q) by (unfold s; lia).
  assert (Hsr' : r <= mcols q /\ s = r \/ mcols q < r /\ s = mcols q) by (unfold s, r; lia).
  clearbody s. wstep. wstep. set (X := sel q n).
  assert (HwX : mwf X) by (unfold mwf, X, sel in *; cbn; lia).
  assert (HinX : forall a, inm X a -> inm q a).
  { intros a (i & j & Hi & Hj & ->). exists i, j. unfold X, sel in Hi, Hj. cbn in Hi, Hj. repeat split; [lia|exact Hj]. }
  assert (HqX : malloc m X).
  { intros i j Hi Hj. unfold X, sel in Hi, Hj. cbn in Hi, Hj. apply Hq; lia. }
  assert (HwwX : wrok W (inm X)) by (intros a Ha; apply Hw, HinX, Ha).
  assert (HdX : disj (inp A below) (inm X)) by (intros a Ha Hb; eapply Hd; [exact Ha|apply HinX, Hb]).
  assert (HdtX : disj (inv tau) (inm X)) by (intros a Ha Hb; eapply Hdt; [exact Ha|apply HinX, Hb]).
  change (mcols q) with (mcols X) in *. change n with (mrows X).
  change (fun j => for_ 0 (mrows X) (fun i => mstore q i j (@f0 K)) ;;; mstore q j j (@f1 K))
    with (fun j => for_ 0 (mrows X) (fun i => mstore X i j (@f0 K)) ;;; mstore X j j (@f1 K)).
  apply wp_bind.
  apply (wp_for (fun j m1 => malloc m1 X /\ (forall i l, i < mrows X -> l < j -> l < mcols X -> get m1 (ma X i l) = Val (idf i l)) /\ keeps (inm X) m m1)).
  { split; [exact HqX|]. split; [intros; lia|apply keeps_refl]. }
  { intros j m1 Hj (Ha & Hv & Hk). apply wp_bind.
    apply (wp_for (fun i m2 => malloc m2 X /\ (forall i' l, i' < mrows X -> l < j -> l < mcols X -> get m2 (ma X i' l) = Val (idf i' l)) /\
       (forall i', i' < i -> i' < mrows X -> get m2 (ma X i' j) = Val f0) /\ keeps (inm X) m m2)).
    - split; [exact Ha|]. split; [exact Hv|]. split; [intros; lia|exact Hk].
    - intros i m2 Hi (Ha2 & Hv2 & Hz2 & Hk2). eapply wp_mstore; [exact Ha2|lia|lia|exact HwwX|].
      split; [apply malloc_upd, Ha2|]. split; [|split].
      + intros i' l Hi' Hl Hl'. rewrite get_upd_other; [apply Hv2; assumption|].
        intros E. apply ma_inj in E; auto; lia.
      + intros i' Hi' Hi''. rewrite get_upd by (apply Ha2; lia).
        destruct (addr_eqb_spec (ma X i' j) (ma X i j)) as [E|E]; [reflexivity|]. apply Hz2; [|exact Hi''].
        assert (i' <> i) by (intros ->; apply E; reflexivity). lia.
      + apply keeps_upd_r; [exact Hk2|apply inm_ma; lia].
    - intros m2 (Ha2 & Hv2 & Hz2 & Hk2).
      assert (Hjn : j < mrows X) by (unfold X, sel in *; cbn in *; lia).
      eapply wp_mstore; [exact Ha2|lia|lia|exact HwwX|].
      split; [apply malloc_upd, Ha2|]. split.
      + intros i' l Hi' Hl Hl'. rewrite get_upd by (apply Ha2; lia).
        destruct (addr_eqb_spec (ma X i' l) (ma X j j)) as [E|E].
        * apply ma_inj in E as [-> ->]; auto. unfold idf. rewrite Nat.eqb_refl. reflexivity.
        * destruct (Nat.eq_dec l j) as [->|Hlj]; [|apply Hv2; lia].
          rewrite Hz2 by lia. f_equal. unfold idf. destruct (Nat.eqb_spec i' j) as [->|]; [contradiction|reflexivity].
      + apply keeps_upd_r; [exact Hk2|apply inm_ma; lia]. }
  intros m1 (Ha1 & Hv1 & Hk1).
  assert (HX1 : mval m1 X idf) by (intros i j Hi Hj; apply Hv1; lia).
  assert (HT : forall k m1, k < s -> keeps (inm X) m m1 -> get m1 (va tau k) = Val (t k)).
  { intros k m' Hk [_ Hkp]. rewrite Hkp; [apply Ht; lia|]. intros Hx'. eapply HdtX; [|exact Hx']. apply inv_va. lia. }
  assert (HR : forall k, k < s -> R (va tau k) \/ W (va tau k)).
  { intros k Hk. apply Hrt. apply inv_va. lia. }
  apply (wp_fordown (fun k m2 => exists y : nat -> nat -> K, mval m2 X y /\
     (forall i j, i < n -> j < k -> j < mcols X -> y i j = idf i j) /\
     (forall i j, i < n -> j < mcols X -> hitm n (qmat n F t k) y i j = qmat n F t s i j) /\ keeps (inm X) m m2)).
  - exists idf. split; [exact HX1|]. split; [reflexivity|]. split; [|exact Hk1].
    intros i j Hi Hj. unfold hitm, hit. destruct (Nat.ltb_spec i n); [|lia].
    apply (mmul_idr L n (qmat n F t s) i j). lia.
  - intros k m2 Hk (y & Hv & Hid & Hy & Hkp). apply wp_bind. unfold vload. eapply wp_pload; [apply HT; [lia|exact Hkp]|apply HR; lia|].
    assert (HQ' : forall (y' : nat -> nat -> K) m3, mval m3 X y' ->
       (forall i j, i < n -> j < mcols X -> y' i j = refl_line n F k (t k) (fun l => y l j) i) -> keeps (inm X) m m3 ->
       exists y : nat -> nat -> K, mval m3 X y /\
         (forall i j, i < n -> j < k -> j < mcols X -> y i j = idf i j) /\
         (forall i j, i < n -> j < mcols X -> hitm n (qmat n F t k) y i j = qmat n F t s i j) /\ keeps (inm X) m m3).
    { intros y' m3 Hv3 Hy' Hk3. exists y'. split; [exact Hv3|]. split; [|split; [|exact Hk3]].
      - intros i j Hi Hj Hj'. rewrite Hy' by assumption. assert (j < n) by (lia).
        rewrite (refl_line_ext n F F k (t k) (fun l => y l j) (fun l => idf l j) i); [apply refl_e; assumption|reflexivity| |].
        + intros l Hl. apply Hid; lia.
        + apply Hid; lia.
      - intros i j Hi Hj. rewrite <- Hy by assumption. unfold hitm.
        rewrite <- (hit_false L n F t k (fun l => y l j) i). apply hit_ext; auto; intros; apply Hy'; assumption. }
    destruct (feqb (t k) f0) eqn:Eb.
    + apply (fl_eqb K L) in Eb. cbn [wp]. eapply HQ'; [exact Hv| |exact Hkp].
      intros i j Hi Hj. rewrite Eb. symmetry. apply (refl_line_0 L n F k (fun l => y l j)).
    + change (fun j => apply_refl A (mrows X) k (t k) (fun i => ma q i j)) with (fun j => apply_refl A (mrows A) k (t k) (fun i => ma X i j)).
      eapply (wp_refl_cols L) with (f := y) (F := F); try assumption.
      * apply Nat.le_refl.
      * fold n. lia.
      * lia.
      * apply pval_okk. eapply pval_keeps; [exact HA|exact Hkp|exact HdX].
      * intros a Ha Hb. eapply HdX; [eapply inp_okk; exact Ha|exact Hb].
      * intros a Ha. apply HrA. eapply inp_okk; exact Ha.
      * lia.
      * intros m3 Hv3 Hk3. eapply HQ'; [exact Hv3| |eapply keeps_trans; eauto].
        intros i j Hi Hj. cbv beta. destruct (Nat.leb_spec k j) as [Hkj|Hkj]; [reflexivity|].
        symmetry. assert (j < n) by (lia).
        rewrite (refl_line_ext n F F k (t k) (fun l => y l j) (fun l => idf l j) i).
        -- rewrite refl_e by assumption. symmetry. apply Hid; lia.
        -- reflexivity.
        -- intros l Hl. apply Hid; lia.
        -- apply Hid; lia.
  - intros m2 (y & Hv & _ & Hy & Hkp). apply HQ; [|exact Hkp]. eapply mval_ext; [exact Hv|].
    intros i j Hi Hj. change (i < n) in Hi. change (j < mcols X) in Hj.
    assert (Hjn : j < n) by (lia).
    transitivity (hitm n (qmat n F t 0) y i j); [symmetry; apply (hit_id L n (fun l => y l j))|].
    rewrite Hy by assumption.
    destruct Hsr' as [[Hr ->]|[Hr ->]].
    + reflexivity.
    + replace r with (mcols X + (r - mcols X)) by lia.
      symmetry. apply qmat_cols; assumption.
Qed.
End QRP8.
