(** * Applying the unitary factor *)
From Coq Require Import Arith NArith Lia List Bool Ring.
From Verif Require Import Fld Prog View Spec Loop Line Avector Amatrix AvectorP AmatrixP Factor FactorSpec FactorP FactorP2 LrP LrP2 Chol CholSpec Qr QrSpec QrP QrP2 QrP3 QrP4.

Section QRP7.
Context {K : fops} (L : field_laws K).
Notation RL := (fl_ring K L).
Add Ring KringQ7 : (rl_ring K (fl_ring K L)).
Implicit Types (m : mem K) (R W : addr -> Prop) (A X : mat) (F G f E M : nat -> nat -> K) (t y w g : nat -> K).

Lemma hit_ext n M M' g g' i : (forall i j, i < n -> j < n -> M i j = M' i j) -> (forall j, j < n -> g j = g' j) -> g i = g' i ->
  hit n M g i = hit n M' g' i.
Proof.
  intros HM Hg Hi. unfold hit. destruct (Nat.ltb_spec i n); [|exact Hi]. apply sum_ext. intros j Hj. rewrite HM, Hg by assumption. reflexivity.
Qed.
Lemma hit_id n g i : hit n idf g i = g i.
Proof. unfold hit. destruct (Nat.ltb_spec i n); [|reflexivity]. apply (mvec_id L); assumption. Qed.
Lemma hit_mul n M M' g i : hit n (mmul n M M') g i = hit n M (hit n M' g) i.
Proof.
  unfold hit at 1 2. destruct (Nat.ltb_spec i n) as [Hi|Hi].
  - rewrite (mvec_mmul L). apply sum_ext. intros j Hj. unfold hit. destruct (Nat.ltb_spec j n); [reflexivity|lia].
  - unfold hit. destruct (Nat.ltb_spec i n); [lia|reflexivity].
Qed.

Lemma refl_line_0 n F k y i : refl_line n F k f0 y i = y i.
Proof. unfold refl_line. destruct (i <? n); [ring|reflexivity]. Qed.
Lemma refl_line_ext n F F' k (beta : K) y y' i : (forall i, k < i -> i < n -> F i k = F' i k) ->
  (forall j, j < n -> y j = y' j) -> y i = y' i -> refl_line n F k beta y i = refl_line n F' k beta y' i.
Proof.
  intros HF Hy Hi. unfold refl_line. destruct (Nat.ltb_spec i n) as [Hn|Hn]; [|exact Hi].
  rewrite Hi, (rvec_ext n F F' k i HF Hn). rewrite (dot_ext' n (rvec F k) (rvec F' k) y y'); [reflexivity| |exact Hy].
  intros j Hj. apply rvec_ext with (n := n); assumption.
Qed.
Lemma refl_hit n F k t y i : refl_line n F k (t k) y i = hit n (rmat F t k) y i.
Proof. unfold refl_line, hit. destruct (Nat.ltb_spec i n); [symmetry; apply (rmat_vec L); assumption|reflexivity]. Qed.

Lemma hit_true n F t k g i :
  refl_line n F k (fconj (t k)) (hit n (tr true (qmat n F t k)) g) i = hit n (tr true (qmat n F t (S k))) g i.
Proof.
  rewrite (refl_hit n F k (fun k => fconj (t k))), <- hit_mul. apply hit_ext; auto.
  intros a b Ha Hb. cbn [qmat]. rewrite (tr_mmul L). apply mmul_ext; [|reflexivity].
  intros l Hl. symmetry. apply (rmat_tr L).
Qed.
Lemma hit_false n F t k y i :
  hit n (qmat n F t k) (refl_line n F k (t k) y) i = hit n (qmat n F t (S k)) y i.
Proof.
  cbn [qmat]. rewrite hit_mul. apply hit_ext; auto; intros; apply refl_hit.
Qed.

(** Only the entries below the diagonal are used. *)
Lemma pval_okk m A F k : pval m A below F -> pval m A (okk k) F.
Proof. intros HA i j Hi Hj [-> Hij]. apply HA; auto. Qed.
Lemma inp_okk A k a : inp A (okk k) a -> inp A below a.
Proof. intros (i & j & Hi & Hj & [-> Hij] & ->). exists i, k. unfold below. auto. Qed.

Lemma wp_qreval_vec R W (tr0 : bool) A tau x F t g m (Q : unit -> mem K -> Prop) :
  let n := mrows A in
  let r := Nat.min (Nat.min n (mcols A)) (vdim tau) in
  pval m A below F -> tval m tau r t -> vval m x g -> n <= vdim x ->
  disj (inp A below) (inv x) -> disj (inv tau) (inv x) ->
  rdok R W (inp A below) -> rdok R W (inv tau) -> wrok W (inv x) ->
  (forall m', vval m' x (hit n (tr tr0 (qmat n F t r)) g) -> keeps (inv x) m m' -> Q tt m') ->
  wp R W (qreval_amatrix_avector tr0 A tau x) m Q.
Proof.
  intros n r HA Ht Hx Hn Hd Hdt HrA Hrt Hw HQ. unfold qreval_amatrix_avector. fold n r. wstep.
  assert (Hstep : forall k (beta : K) y m1, k < r -> keeps (inv x) m m1 -> vval m1 x y ->
    forall Q' : unit -> mem K -> Prop,
    (forall m', vval m' x (refl_line n F k beta y) -> keeps (inv x) m m' -> Q' tt m') ->
    wp R W (if feqb beta f0 then Ret tt else apply_refl A n k beta (va x)) m1 Q').
  { intros k beta y m1 Hk Hkp Hy Q' HQ'. destruct (feqb beta f0) eqn:Eb.
    - apply (fl_eqb K L) in Eb. subst beta. cbn [wp]. apply HQ'; [|exact Hkp].
      eapply vval_ext; [exact Hy|]. intros i Hi. symmetry. apply refl_line_0.
    - eapply wp_apply_refl with (N := vdim x) (y := y) (F := F); try assumption; try lia.
      + apply linj_vec.
      + apply pval_okk. eapply pval_keeps; [exact HA|exact Hkp|exact Hd].
      + intros a Ha Hb. eapply Hd; [eapply inp_okk; exact Ha|exact Hb].
      + intros a Ha. apply HrA. eapply inp_okk; exact Ha.
      + intros m' Hl Hk'. apply HQ'; [exact Hl|]. eapply keeps_trans; [exact Hkp|exact Hk']. }
  assert (HT : forall k m1, k < r -> keeps (inv x) m m1 -> get m1 (va tau k) = Val (t k)).
  { intros k m1 Hk [_ Hkp]. rewrite Hkp; [apply Ht, Hk|]. intros Hx'. eapply Hdt; [|exact Hx']. apply inv_va. lia. }
  assert (HR : forall k, k < r -> R (va tau k) \/ W (va tau k)).
  { intros k Hk. apply Hrt. apply inv_va. lia. }
  destruct tr0.
  - apply (wp_for (fun k m1 => vval m1 x (hit n (tr true (qmat n F t k)) g) /\ keeps (inv x) m m1)).
    + split; [|apply keeps_refl]. eapply vval_ext; [exact Hx|]. intros i Hi. symmetry.
      transitivity (hit n idf g i); [|apply hit_id]. apply hit_ext; auto. intros a b Ha Hb. cbn [qmat tr].
      rewrite (idf_conj L). apply (idf_sym).
    + intros k m1 Hk [Hv Hkp]. apply wp_bind. unfold vload. eapply wp_pload; [apply HT; [lia|exact Hkp]|apply HR; lia|].
      cbv zeta. eapply Hstep; [lia|exact Hkp|exact Hv|]. intros m2 Hv2 Hk2. split; [|exact Hk2].
      eapply vval_ext; [exact Hv2|]. intros i Hi. apply hit_true.
    + intros m1 [Hv Hkp]. apply HQ; assumption.
  - apply (wp_fordown (fun k m1 => exists y, vval m1 x y /\ (forall i, i < vdim x -> hit n (qmat n F t k) y i = hit n (qmat n F t r) g i) /\ keeps (inv x) m m1)).
    + exists g. split; [exact Hx|]. split; [reflexivity|apply keeps_refl].
    + intros k m1 Hk (y & Hv & Hy & Hkp). apply wp_bind. unfold vload. eapply wp_pload; [apply HT; [lia|exact Hkp]|apply HR; lia|].
      eapply Hstep; [lia|exact Hkp|exact Hv|]. intros m2 Hv2 Hk2. eexists. split; [exact Hv2|]. split; [|exact Hk2].
      intros i Hi. rewrite hit_false. apply Hy, Hi.
    + intros m1 (y & Hv & Hy & Hkp). apply HQ; [|exact Hkp]. eapply vval_ext; [exact Hv|].
      intros i Hi. cbn [tr]. rewrite <- Hy by exact Hi. cbn [qmat]. symmetry. apply hit_id.
Qed.

(** ** Matrices *)
Lemma wp_refl_cols R W A k (beta : K) X c0 f F m (Q : unit -> mem K -> Prop) :
  let n := mrows A in
  mwf X -> mval m X f -> n <= mrows X -> k < n -> k < mcols A -> pval m A (okk k) F ->
  disj (inp A (okk k)) (inm X) -> rdok R W (inp A (okk k)) -> wrok W (inm X) -> c0 <= mcols X ->
  (forall m', mval m' X (fun i j => if c0 <=? j then refl_line n F k beta (fun l => f l j) i else f i j) ->
     keeps (inm X) m m' -> Q tt m') ->
  wp R W (for_ c0 (mcols X - c0) (fun j => apply_refl A n k beta (fun i => ma X i j))) m Q.
Proof.
  intros n Hwf HX Hn Hk Hkc HA Hd Hr Hw Hc0 HQ.
  apply (wp_for (fun j m1 => mval m1 X (fun i l => if (c0 <=? l) && (l <? j) then refl_line n F k beta (fun i => f i l) i else f i l) /\ keeps (inm X) m m1)).
  - split; [|apply keeps_refl]. eapply mval_ext; [exact HX|]. intros i j Hi Hj. bsplit; try lia; reflexivity.
  - intros j m1 Hj [Hv Hkp].
    assert (HI : forall a, inl (fun i => ma X i j) (mrows X) a -> inm X a).
    { intros a (i & Hi & ->). apply inm_ma; lia. }
    eapply wp_apply_refl with (N := mrows X) (y := fun i => f i j) (F := F); try assumption; try lia.
    + apply linj_col, Hwf.
    + intros i Hi. rewrite Hv by lia. f_equal. bsplit; try lia; reflexivity.
    + eapply pval_keeps; [exact HA|exact Hkp|exact Hd].
    + intros a Ha Hb. eapply Hd; [exact Ha|apply HI, Hb].
    + intros a Ha. apply Hw, HI, Ha.
    + intros m2 Hl2 Hk2. split.
      * eapply mval_ext; [eapply mval_col; [exact Hwf| |exact Hv|exact Hl2|exact Hk2]|]; [lia|].
        intros i l Hi Hl. cbv beta. fold n. bsplit; try lia; subst; reflexivity.
      * eapply keeps_trans; [exact Hkp|]. eapply keeps_mono; [|exact Hk2]. exact HI.
  - intros m1 [Hv Hkp]. apply HQ; [|exact Hkp]. eapply mval_ext; [exact Hv|].
    intros i j Hi Hj. cbv beta. bsplit; try lia; reflexivity.
Qed.

(** A product with every column. *)
Lemma wp_qreval_mat R W (tr0 : bool) A tau X F t (g : nat -> nat -> K) m (Q : unit -> mem K -> Prop) :
  let n := mrows A in
  let r := Nat.min (Nat.min n (mcols A)) (vdim tau) in
  mwf X -> pval m A below F -> tval m tau r t -> mval m X g -> n <= mrows X ->
  disj (inp A below) (inm X) -> disj (inv tau) (inm X) ->
  rdok R W (inp A below) -> rdok R W (inv tau) -> wrok W (inm X) ->
  (forall m', mval m' X (hitm n (tr tr0 (qmat n F t r)) g) -> keeps (inm X) m m' -> Q tt m') ->
  wp R W (qreval_amatrix tr0 A tau X) m Q.
Proof.
  intros n r Hwf HA Ht Hx Hn Hd Hdt HrA Hrt Hw HQ. unfold qreval_amatrix. fold n r. wstep.
  assert (Hstep : forall k (beta : K) (y : nat -> nat -> K) m1, k < r -> keeps (inm X) m m1 -> mval m1 X y ->
    forall Q' : unit -> mem K -> Prop,
    (forall m', mval m' X (fun i j => refl_line n F k beta (fun l => y l j) i) -> keeps (inm X) m m' -> Q' tt m') ->
    wp R W (if feqb beta f0 then Ret tt else for_ 0 (mcols X) (fun j => apply_refl A n k beta (fun i => ma X i j))) m1 Q').
  { intros k beta y m1 Hk Hkp Hy Q' HQ'. destruct (feqb beta f0) eqn:Eb.
    - apply (fl_eqb K L) in Eb. subst beta. cbn [wp]. apply HQ'; [|exact Hkp].
      eapply mval_ext; [exact Hy|]. intros i j Hi Hj. symmetry. apply (refl_line_0 n F k (fun l => y l j)).
    - rewrite <- (Nat.sub_0_r (mcols X)).
      eapply wp_refl_cols with (f := y) (F := F); try assumption; try lia.
      + apply pval_okk. eapply pval_keeps; [exact HA|exact Hkp|exact Hd].
      + intros a Ha Hb. eapply Hd; [eapply inp_okk; exact Ha|exact Hb].
      + intros a Ha. apply HrA. eapply inp_okk; exact Ha.
      + intros m' Hl Hk'. apply HQ'; [exact Hl|]. eapply keeps_trans; [exact Hkp|exact Hk']. }
  assert (HT : forall k m1, k < r -> keeps (inm X) m m1 -> get m1 (va tau k) = Val (t k)).
  { intros k m1 Hk [_ Hkp]. rewrite Hkp; [apply Ht, Hk|]. intros Hx'. eapply Hdt; [|exact Hx']. apply inv_va. lia. }
  assert (HR : forall k, k < r -> R (va tau k) \/ W (va tau k)).
  { intros k Hk. apply Hrt. apply inv_va. lia. }
  destruct tr0.
  - apply (wp_for (fun k m1 => mval m1 X (hitm n (tr true (qmat n F t k)) g) /\ keeps (inm X) m m1)).
    + split; [|apply keeps_refl]. eapply mval_ext; [exact Hx|]. intros i j Hi Hj. symmetry. unfold hitm.
      transitivity (hit n idf (fun l => g l j) i); [|apply (hit_id n (fun l => g l j))]. apply hit_ext; auto. intros a b Ha Hb. cbn [qmat tr].
      rewrite (idf_conj L). apply (idf_sym).
    + intros k m1 Hk [Hv Hkp]. apply wp_bind. unfold vload. eapply wp_pload; [apply HT; [lia|exact Hkp]|apply HR; lia|].
      cbv zeta. eapply Hstep; [lia|exact Hkp|exact Hv|]. intros m2 Hv2 Hk2. split; [|exact Hk2].
      eapply mval_ext; [exact Hv2|]. intros i j Hi Hj. apply (hit_true n F t k (fun l => g l j)).
    + intros m1 [Hv Hkp]. apply HQ; assumption.
  - apply (wp_fordown (fun k m1 => exists y : nat -> nat -> K, mval m1 X y /\ (forall i j, i < mrows X -> j < mcols X -> hitm n (qmat n F t k) y i j = hitm n (qmat n F t r) g i j) /\ keeps (inm X) m m1)).
    + exists g. split; [exact Hx|]. split; [reflexivity|apply keeps_refl].
    + intros k m1 Hk (y & Hv & Hy & Hkp). apply wp_bind. unfold vload. eapply wp_pload; [apply HT; [lia|exact Hkp]|apply HR; lia|].
      eapply Hstep; [lia|exact Hkp|exact Hv|]. intros m2 Hv2 Hk2. eexists. split; [exact Hv2|]. split; [|exact Hk2].
      intros i j Hi Hj. unfold hitm. rewrite hit_false. apply Hy; assumption.
    + intros m1 (y & Hv & Hy & Hkp). apply HQ; [|exact Hkp]. eapply mval_ext; [exact Hv|].
      intros i j Hi Hj. cbn [tr]. rewrite <- Hy by assumption. unfold hitm. cbn [qmat]. symmetry. apply (hit_id n (fun l => y l j)).
Qed.
End QRP7.
