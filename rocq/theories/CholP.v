(** * Proofs about the Cholesky and LDL^T decompositions *)
From Coq Require Import Arith NArith Lia List Bool Ring.
From Verif Require Import Fld Prog View Spec Loop Avector AvectorP Amatrix AmatrixP Factor FactorSpec Line
  FactorP FactorP2 FactorP3 FactorP4 Lr LrP LrP2 Chol CholSpec.

Section SYM.
Context {K : fops} (L : field_laws K).
Add Ring KringC : (rl_ring K (fl_ring K L)).
Implicit Types (m : mem K) (R W : addr -> Prop) (A : mat) (x : vec).
Notation low := (intri true false).

Lemma cmul (a b : K) : fconj (a * b)%F = (fconj a * fconj b)%F. Proof. apply (rl_conj_mul K (fl_ring K L)). Qed.
Lemma cadd (a b : K) : fconj (a + b)%F = (fconj a + fconj b)%F. Proof. apply (rl_conj_add K (fl_ring K L)). Qed.
Lemma ccj (a : K) : fconj (fconj a) = a. Proof. apply (rl_conj_conj K (fl_ring K L)). Qed.

(** ** The symmetric elimination on entries *)

(** After [p] steps the leading [q] rows and columns of [f] are [M d M^*] of rank [p] plus
    what is left in [F]. *)
Definition sinv (q p : nat) (M : nat -> nat -> K) (d : nat -> K) (F f : nat -> nat -> K) : Prop :=
  forall i j, i < q -> j <= i ->
    f i j = (sum p (fun k => M i k * d k * fconj (M j k)) + (if p <=? j then F i j else f0))%F.

Definition lowtri (M : nat -> nat -> K) : Prop := forall i k, i < k -> M i k = f0.

Lemma sinv_0 q M d f : sinv q 0 M d f f.
Proof. intros i j _ _. rewrite (proj2 (Nat.leb_le 0 j)) by lia. cbn [sum]. ring. Qed.

Lemma sinv_step q p M d F f M' d' F' :
  sinv q p M d F f ->
  (forall i k, i < q -> k < p -> M' i k = M i k) -> (forall k, k < p -> d' k = d k) ->
  lowtri M' -> p < q ->
  (forall i j, i < q -> j <= i -> p <= j ->
     F i j = (M' i p * d' p * fconj (M' j p) + (if p <? j then F' i j else f0))%F) ->
  sinv q (S p) M' d' F' f.
Proof.
  intros HI HM Hd HT Hp HF i j Hi Hj. rewrite (HI i j Hi Hj). cbn [sum].
  rewrite (sum_ext p (fun k => M' i k * d' k * fconj (M' j k))%F (fun k => M i k * d k * fconj (M j k))%F).
  2:{ intros k Hk. rewrite !HM, Hd by lia. reflexivity. }
  destruct (Nat.leb_spec p j) as [Hpj|Hpj].
  - rewrite (HF i j) by lia. unfold Nat.ltb. ring.
  - rewrite (HT j p) by lia. rewrite (fconj_0 (fl_ring K L)). bsplit; ring.
Qed.

Lemma sinv_real q p M d F f i :
  sinv q p M d F f -> (forall i, i < q -> fconj (f i i) = f i i) -> (forall k, k < p -> fconj (d k) = d k) ->
  p <= i -> i < q -> fconj (F i i) = F i i.
Proof.
  intros HI Hf Hd Hp Hi. pose proof (HI i i Hi (le_n i)) as E.
  destruct (Nat.leb_spec p i); [|lia].
  assert (E' : F i i = (f i i - sum p (fun k => M i k * d k * fconj (M i k)))%F) by (rewrite E; ring).
  rewrite E'.
  assert (Es : fconj (sum p (fun k => M i k * d k * fconj (M i k))%F) = sum p (fun k => M i k * d k * fconj (M i k))%F).
  { rewrite (sum_conj (fl_ring K L)). apply sum_ext. intros k Hk. rewrite !cmul, ccj, Hd by exact Hk. ring. }
  transitivity (fconj (f i i) + fconj (fopp f1 * sum p (fun k => M i k * d k * fconj (M i k))))%F.
  - rewrite <- cadd. f_equal. ring.
  - rewrite cmul, Es, Hf by exact Hi. rewrite (fconj_opp (fl_ring K L)), (fconj_1 (fl_ring K L)). ring.
Qed.

(** The hermitian matrix itself. *)
Lemma sinv_herm q p M d F f :
  sinv q p M d F f -> (forall k, k < p -> fconj (d k) = d k) ->
  forall i j, i < q -> j < q ->
  herm f i j = (sum p (fun k => M i k * d k * fconj (M j k)) + (if (p <=? i) && (p <=? j) then herm F i j else f0))%F.
Proof.
  intros HI Hd i j Hi Hj. unfold herm. destruct (Nat.leb_spec j i) as [Hij|Hij].
  - rewrite (HI i j) by lia. bsplit; try reflexivity; lia.
  - rewrite (HI j i) by lia. rewrite cadd, (sum_conj (fl_ring K L)). f_equal.
    + apply sum_ext. intros k Hk. rewrite !cmul, ccj, Hd by exact Hk. ring.
    + destruct (Nat.leb_spec p i), (Nat.leb_spec p j); try lia; cbn [andb]; try reflexivity;
        apply (fconj_0 (fl_ring K L)).
Qed.

(** [M^* v] *)
Definition adjv (n : nat) (M : nat -> nat -> K) (v : nat -> K) (k : nat) : K :=
  sum n (fun j => fconj (M j k) * v j)%F.

Lemma sinv_mvec n M d F f :
  sinv n n M d F f -> (forall k, k < n -> fconj (d k) = d k) ->
  forall v i, i < n -> mvec n (herm f) v i = sum n (fun k => M i k * d k * adjv n M v k)%F.
Proof.
  intros HI Hd v i Hi. unfold mvec.
  rewrite (sum_ext n _ (fun j => sum n (fun k => M i k * d k * fconj (M j k) * v j)%F)).
  2:{ intros j Hj. rewrite (sinv_herm n n M d F f HI Hd i j Hi Hj).
      destruct (Nat.leb_spec n i); [lia|]. cbn [andb].
      rewrite (sum_mul_r (fl_ring K L)). ring. }
  rewrite (sum_swap (fl_ring K L)). apply sum_ext. intros k Hk. unfold adjv.
  rewrite <- (sum_mul_l (fl_ring K L)). apply sum_ext. intros j Hj. ring.
Qed.

Lemma sinv_quad n M d F f :
  sinv n n M d F f -> (forall k, k < n -> fconj (d k) = d k) ->
  forall v, quad n (herm f) v = sum n (fun k => fconj (adjv n M v k) * d k * adjv n M v k)%F.
Proof.
  intros HI Hd v. unfold quad, dot.
  rewrite (sum_ext n _ (fun i => sum n (fun k => fconj (v i) * M i k * d k * adjv n M v k)%F)).
  2:{ intros i Hi. rewrite (sinv_mvec n M d F f HI Hd v i Hi).
      rewrite <- (sum_mul_l (fl_ring K L)). apply sum_ext. intros k Hk. ring. }
  rewrite (sum_swap (fl_ring K L)). apply sum_ext. intros k Hk. unfold adjv at 2.
  rewrite (sum_conj (fl_ring K L)).
  rewrite (sum_ext n (fun i => fconj (v i) * M i k * d k * adjv n M v k)%F (fun i => (fconj (fconj (M i k) * v i) * (d k * adjv n M v k))%F)).
  2:{ intros i Hi. rewrite cmul, ccj. ring. }
  rewrite (sum_mul_r (fl_ring K L)). ring.
Qed.

(** [M^*] and [M] have trivial kernels. *)
Lemma adjv_inj n M v : lowtri M -> (forall i, i < n -> M i i <> f0) ->
  (forall k, k < n -> adjv n M v k = f0) -> forall i, i < n -> v i = f0.
Proof.
  intros HT HD H0 i Hi.
  apply (tri_unique L true n (fun i j => fconj (M j i)) v (fun _ => f0)); auto.
  - intros i0 j Hi0 Hj Hlt. cbn in Hlt. rewrite HT by lia. apply (fconj_0 (fl_ring K L)).
  - intros k Hk. apply (fconj_n0 L), HD, Hk.
  - intros k Hk. rewrite (mvec_0 L). apply H0, Hk.
Qed.

Lemma lowtri_inj n M w : lowtri M -> (forall i, i < n -> M i i <> f0) ->
  (forall i, i < n -> mvec n M w i = f0) -> forall i, i < n -> w i = f0.
Proof.
  intros HT HD H0 i Hi.
  apply (tri_unique L false n M w (fun _ => f0)); auto.
  intros k Hk. rewrite (mvec_0 L). apply H0, Hk.
Qed.

Lemma sinv_regular n M d F f : sinv n n M d F f -> lowtri M ->
  (forall k, k < n -> fconj (d k) = d k) -> (forall k, k < n -> d k <> f0) ->
  (forall i, i < n -> M i i <> f0) -> regular n (herm f).
Proof.
  intros HI HT Hd Hd0 HD v Hv. apply (adjv_inj n M v HT HD).
  assert (H1 : forall k, k < n -> (d k * adjv n M v k)%F = f0).
  { apply (lowtri_inj n M (fun k => d k * adjv n M v k)%F HT HD). intros i Hi.
    rewrite <- (Hv i Hi), (sinv_mvec n M d F f HI Hd v i Hi). apply sum_ext. intros k Hk. ring. }
  intros k Hk. apply (mul_cancel L (d k)); [apply Hd0, Hk|]. rewrite H1 by exact Hk. ring.
Qed.

Lemma sinv_lead q p j M d F f : sinv q p M d F f -> lowtri M -> j <= p -> j <= q -> sinv j j M d F f.
Proof.
  intros H HT Hp Hq a b Ha Hb. rewrite (H a b) by lia.
  replace p with (j + (p - j)) by lia. rewrite (sum_app (fl_ring K L)).
  rewrite (sum_0 (fl_ring K L) (p - j)).
  2:{ intros k Hk. rewrite (HT a) by lia. ring. }
  destruct (Nat.leb_spec (j + (p - j)) b); [lia|]. destruct (Nat.leb_spec j b); [lia|]. ring.
Qed.

(** If the elimination stops at [p], some vector is mapped to a multiple of the unit
    vector. *)
Lemma sinv_stop p M d F f : sinv (S p) p M d F f -> lowtri M ->
  (forall k, k < p -> fconj (d k) = d k) -> fconj (F p p) = F p p -> (forall i, i < p -> M i i <> f0) ->
  exists v : nat -> K, v p = f1 /\
    forall i, i < S p -> mvec (S p) (herm f) v i = if i =? p then F p p else f0.
Proof.
  intros HI HT Hd HF HD.
  destruct (up_exists L p (fun i j => fconj (M j i))) with (b := fun l => (fopp (fconj (M p l)))%F) as [w Hw].
  { intros i j Hlt. rewrite HT by exact Hlt. apply (fconj_0 (fl_ring K L)). }
  { intros i Hi. apply (fconj_n0 L), HD, Hi. }
  set (v := fun i => if i =? p then f1 else w i).
  exists v. split; [unfold v; rewrite Nat.eqb_refl; reflexivity|].
  intros i Hi. unfold mvec.
  assert (Hv : forall l, l < p -> sum (S p) (fun j => fconj (M j l) * v j)%F = f0).
  { intros l Hl. cbn [sum].
    rewrite (sum_ext p _ (fun j => fconj (M j l) * w j)%F).
    2:{ intros j Hj. unfold v. destruct (Nat.eqb_spec j p); [lia|reflexivity]. }
    specialize (Hw l Hl). unfold mvec in Hw. rewrite Hw. unfold v. rewrite Nat.eqb_refl. ring. }
  rewrite (sum_ext (S p) _ (fun j => sum p (fun k => M i k * d k * fconj (M j k) * v j)
      + (if (p <=? i) && (p <=? j) then herm F i j else f0) * v j)%F).
  2:{ intros j Hj. rewrite (sinv_herm (S p) p M d F f HI Hd i j Hi Hj).
      rewrite (sum_mul_r (fl_ring K L)). ring. }
  rewrite (sum_add (fl_ring K L)).
  rewrite (sum_swap (fl_ring K L)).
  rewrite (sum_0 (fl_ring K L) p).
  2:{ intros k Hk. 
      rewrite (sum_ext (S p) _ (fun j => (M i k * d k) * (fconj (M j k) * v j))%F).
      2:{ intros j Hj. ring. }
      rewrite (sum_mul_l (fl_ring K L)), Hv by exact Hk. ring. }
  cbn [sum]. rewrite (sum_0 (fl_ring K L) p).
  2:{ intros j Hj. destruct (Nat.leb_spec p j); [lia|]. rewrite andb_false_r. ring. }
  unfold v. rewrite Nat.eqb_refl. destruct (Nat.leb_spec p p); [|lia]. rewrite andb_true_r.
  destruct (Nat.eqb_spec i p) as [->|Hne].
  - destruct (Nat.leb_spec p p); [|lia]. unfold herm. rewrite Nat.leb_refl. ring.
  - destruct (Nat.leb_spec p i); [lia|]. ring.
Qed.

(** ** The memory *)
Lemma pval_fupd_step m m' A ok f i j v (G : nat -> nat -> K) :
  mwf A -> pval m A ok f -> wrote m (ma A i j) v m' -> i < mrows A ->
  (forall k l, k < mrows A -> l < mcols A -> ok k l -> G k l = if (k =? i) && (l =? j) then v else f k l) ->
  pval m' A ok G.
Proof.
  intros Hw H [_ [H1 H2]] Hi HG k l Hk Hl Ho. rewrite HG by assumption.
  destruct (Nat.eqb_spec k i), (Nat.eqb_spec l j); cbn [andb]; subst; try exact H1;
    rewrite H2; auto; intros E'; apply ma_inj in E'; auto; destruct E'; congruence.
Qed.

Lemma pval_ext m A ok (f g : nat -> nat -> K) : pval m A ok f ->
  (forall i j, i < mrows A -> j < mcols A -> ok i j -> f i j = g i j) -> pval m A ok g.
Proof. intros H E i j Hi Hj Ho. rewrite <- E by assumption. apply H; assumption. Qed.

Lemma wp_pld R W A ok f i j m (B : Type) (k : K -> prog K B) (Q : B -> mem K -> Prop) :
  pval m A ok f -> wrok W (inp A ok) -> i < mrows A -> j < mcols A -> ok i j ->
  wp R W (k (f i j)) m Q -> wp R W (bind (mload A i j) k) m Q.
Proof.
  intros HF Hw Hi Hj Ho HQ. apply wp_bind. eapply wp_pval; eauto. intros a Ha. right. apply Hw, Ha.
Qed.

Lemma wp_pst R W A ok f i j v m (Q : unit -> mem K -> Prop) :
  pval m A ok f -> wrok W (inp A ok) -> i < mrows A -> j < mcols A -> ok i j ->
  (forall m', wrote m (ma A i j) v m' -> Q tt m') -> wp R W (mstore A i j v) m Q.
Proof.
  intros HF Hw Hi Hj Ho HQ. unfold mstore.
  apply wp_pstore; [rewrite (HF i j Hi Hj Ho); discriminate|apply Hw; exists i, j; auto|].
  apply HQ. apply wrote_upd; [rewrite (HF i j Hi Hj Ho); discriminate|reflexivity].
Qed.

Lemma inp_ma A (ok : nat -> nat -> Prop) i j : i < mrows A -> j < mcols A -> ok i j -> inp A ok (ma A i j).
Proof. intros. exists i, j. auto. Qed.

(** One elimination step. *)
Definition symG (F : nat -> nat -> K) (i : nat) (alpha : K) (g : K -> K -> K) (p q : nat) : K :=
  if q =? i then (if i <? p then (F p i * alpha)%F else F p q)
  else if (i <? q) && (q <=? p) then (F p q - g (F p i * alpha)%F (F q i * alpha)%F)%F else F p q.

Lemma wp_sym_step R W A n i alpha (g : K -> K -> K) F m (Q : unit -> mem K -> Prop) :
  mwf A -> pval m A low F -> wrok W (inp A low) -> mrows A = n -> mcols A = n -> i < n ->
  (forall m', pval m' A low (symG F i alpha g) -> keeps (inp A low) m m' -> Q tt m') ->
  wp R W (for_ (i + 1) (n - (i + 1)) (fun j => v <- mload A j i ;; mstore A j i (v * alpha)%F) ;;;
          for_ (i + 1) (n - (i + 1)) (fun j =>
            for_ (i + 1) (j - i) (fun k =>
              z <- mload A j k ;; x <- mload A j i ;; y <- mload A k i ;; mstore A j k (z - g x y)%F))) m Q.
Proof.
  intros Hwf HF Hw Hr Hc Hi HQ. apply wp_bind.
  apply (wp_for (fun j m1 => pval m1 A low (fun p q => if (q =? i) && (i <? p) && (p <? j) then (F p i * alpha)%F else F p q)
                             /\ keeps (inp A low) m m1)).
  - split; [|apply keeps_refl]. eapply pval_ext; [exact HF|]. intros p q _ _ _; cbv beta. bsplit; reflexivity.
  - intros j m1 Hj [Hv Hk].
    eapply wp_pld; [exact Hv|exact Hw|lia|lia|right; lia|].
    eapply wp_pst; [exact Hv|exact Hw|lia|lia|right; lia|].
    intros m2 Hwr. split.
    + eapply pval_fupd_step; [exact Hwf|exact Hv|exact Hwr|lia|].
      intros p q Hp Hq _; cbv beta. bsplit; subst; try reflexivity; lia.
    + eapply wrote_keeps; [exact Hk|exact Hwr|]. apply inp_ma; [lia|lia|right; lia].
  - intros m1 [Hv1 Hk1].
    set (F1 := fun p q => if (q =? i) && (i <? p) then (F p i * alpha)%F else F p q).
    assert (HF1 : pval m1 A low F1).
    { eapply pval_ext; [exact Hv1|]. intros p q Hp Hq _; cbv beta. unfold F1. bsplit; reflexivity. }
    clear Hv1.
    apply (wp_for (fun j m1 => pval m1 A low (fun p q => if (p <? j) then symG F i alpha g p q else F1 p q)
                               /\ keeps (inp A low) m m1)).
    + split; [|exact Hk1]. eapply pval_ext; [exact HF1|]. intros p q Hp Hq [[Hpq _]|Hpq]; unfold F1, symG; bsplit; subst; try reflexivity; lia.
    + intros j m2 Hj [Hv2 Hk2].
      apply (wp_for (fun k m1 => pval m1 A low (fun p q => if (p <? j) || (p =? j) && (q <? k) then symG F i alpha g p q else F1 p q)
                               /\ keeps (inp A low) m m1)).
      * split; [|exact Hk2]. eapply pval_ext; [exact Hv2|].
        intros p q Hp Hq [[Hpq _]|Hpq]; unfold F1, symG; bsplit; subst; try reflexivity; lia.
      * intros k m3 Hk' [Hv3 Hk3].
        assert (Hjk : low j k) by (unfold intri; destruct (Nat.eq_dec j k); [left; auto|right; lia]).
        eapply wp_pld; [exact Hv3|exact Hw|lia|lia|exact Hjk|].
        eapply wp_pld; [exact Hv3|exact Hw|lia|lia|right; lia|].
        eapply wp_pld; [exact Hv3|exact Hw|lia|lia|right; lia|].
        eapply wp_pst; [exact Hv3|exact Hw|lia|lia|exact Hjk|].
        intros m4 Hwr. split.
        -- eapply pval_fupd_step; [exact Hwf|exact Hv3|exact Hwr|lia|].
           intros p q Hp Hq Hpq; cbv beta.
           destruct (Nat.eqb_spec p j) as [->|Hpj]; [destruct (Nat.eqb_spec q k) as [->|Hqk]|]; cbn [andb].
           ++ unfold symG, F1. bsplit; try reflexivity; lia.
           ++ bsplit; try reflexivity; lia.
           ++ bsplit; try reflexivity; lia.
        -- eapply wrote_keeps; [exact Hk3|exact Hwr|]. apply inp_ma; [lia|lia|exact Hjk].
      * intros m3 [Hv3 Hk3]. split; [|exact Hk3]. eapply pval_ext; [exact Hv3|].
        intros p q Hp Hq [[Hpq _]|Hpq]; cbv beta; bsplit; subst; try reflexivity; lia.
    + intros m2 [Hv2 Hk2]. apply HQ; [|exact Hk2]. eapply pval_ext; [exact Hv2|].
      intros p q Hp Hq _; cbv beta. bsplit; reflexivity.
Qed.
End SYM.
