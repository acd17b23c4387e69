(** * QR decomposition with column pivoting and rank detection *)
From Coq Require Import Arith NArith Lia List Bool Ring Permutation.
From Verif Require Import Fld Prog View Spec Loop Line Avector Amatrix AvectorP AmatrixP Factor FactorSpec FactorP FactorP2 Chol CholSpec Qr QrSpec QrP QrP2 QrP3 QrP4.

Section QRP5.
Context {K : fops} (L : field_laws K) (O : qops K) (H : qlaws O).
Notation RL := (fl_ring K L).
Add Ring KringQ5 : (rl_ring K (fl_ring K L)).
Implicit Types (m : mem K) (R W : addr -> Prop) (A X : mat) (F G f E M : nat -> nat -> K) (t y w : nat -> K).

(** ** The pivot elements dominate *)
Definition pinv (n c k : nat) F t : Prop :=
  forall l j, l < k -> l <= j -> j < c ->
    t l = f0 \/ gtb O (csum n l (Rk F k) j) (abssqr (F l l)) = false.

Lemma csum_split n l M j : l <= n -> dot n (fun i => M i j) (fun i => M i j) = (sum l (fun i => abssqr (M i j)) + csum n l M j)%F.
Proof.
  intros Hl. unfold dot, csum. replace n with (l + (n - l)) at 1 by lia. rewrite (sum_app RL). reflexivity.
Qed.
Lemma csum_ext n l M M' j j' : (forall i, l <= i < n -> M i j = M' i j') -> csum n l M j = csum n l M' j'.
Proof. intros HM. unfold csum. apply sum_ext. intros i Hi. rewrite HM by lia. reflexivity. Qed.

Lemma rmat_low n G t k M i j : k < n -> i < k -> mmul n (rmat G t k) M i j = M i j.
Proof.
  intros Hk Hi. rewrite (rmat_mmul L) by lia. unfold rvec at 2. destruct (Nat.ltb_spec i k); [ring|lia].
Qed.
Lemma csum_refl n G t k l M j : okr n G t k -> k < n -> l <= k -> csum n l (mmul n (rmat G t k) M) j = csum n l M j.
Proof.
  intros OK Hk Hl.
  assert (E : dot n (fun i => mmul n (rmat G t k) M i j) (fun i => mmul n (rmat G t k) M i j) = dot n (fun i => M i j) (fun i => M i j)).
  { apply (unitary_dot L n (rmat G t k) (fun i => M i j) (fun i => M i j)). apply (rmat_unitary L), OK. }
  rewrite !(csum_split n l) in E by lia.
  rewrite (sum_ext l _ (fun i => abssqr (M i j))) in E by (intros i Hi; rewrite rmat_low by lia; reflexivity).
  set (S1 := sum l (fun i => abssqr (M i j))) in *.
  transitivity (S1 + csum n l (mmul n (rmat G t k) M) j - S1)%F; [ring|]. rewrite E. ring.
Qed.

Lemma qrstep_diag n c k F G t' : k < n -> k < c ->
  csum n k F k <> f0 -> qrstep O n c k F (csum n k F k) G -> t' k = step_beta O F k (csum n k F k) ->
  abssqr (G k k) = csum n k F k.
Proof.
  intros Hn Hc Hs HG Hk0. destruct (qrstep_refl L O H n c k F G t' Hn Hc Hs HG Hk0) as [OK HH].
  transitivity (csum n k (Rk F k) k).
  2:{ apply csum_ext. intros i Hi. unfold Rk. rewrite Nat.ltb_irrefl. reflexivity. }
  rewrite <- (csum_refl n G t' k k (Rk F k) k OK Hn (Nat.le_refl k)).
  rewrite (csum_ext n k _ (Rk G (S k)) k k) by (intros i Hi; apply HH; lia).
  rewrite (csum_S L) by exact Hn. unfold csum. rewrite (sum_0 RL).
  - unfold Rk. rewrite Nat.ltb_irrefl, andb_false_r. ring.
  - intros i Hi. unfold Rk. bsplit; try lia. unfold abssqr. ring.
Qed.

Lemma pinv_step n c k F G t t' : pinv n c k F t -> k < n -> k < c ->
  csum n k F k <> f0 -> qrstep O n c k F (csum n k F k) G -> t' k = step_beta O F k (csum n k F k) ->
  (forall j, j < k -> t' j = t j) ->
  (forall j, k <= j < c -> gtb O (csum n k F j) (csum n k F k) = false) ->
  pinv n c (S k) G t'.
Proof.
  intros HP Hn Hc Hs HG Hk0 Ht Hmax.
  pose proof (qrstep_diag n c k F G t' Hn Hc Hs HG Hk0) as HD.
  destruct (qrstep_refl L O H n c k F G t' Hn Hc Hs HG Hk0) as [OK HH].
  assert (EC : forall l j, l <= k -> j < c -> csum n l (Rk G (S k)) j = csum n l (Rk F k) j).
  { intros l j Hl Hj. rewrite <- (csum_refl n G t' k l (Rk F k) j OK Hn Hl).
    apply csum_ext. intros i Hi. symmetry. apply HH; lia. }
  intros l j Hl Hlj Hj. rewrite EC by lia. destruct (Nat.eq_dec l k) as [->|Hne].
  - right. rewrite HD. rewrite (csum_ext n k (Rk F k) F j j); [apply Hmax; lia|].
    intros i Hi. unfold Rk. bsplit; try lia. reflexivity.
  - destruct HG as [G1 _]. rewrite G1 by lia. rewrite Ht by lia. apply HP; lia.
Qed.

Lemma gtb_ssq a b c : ssq b -> gtb O (a + b)%F c = false -> gtb O a c = false.
Proof.
  intros (n & x & ->). revert a. induction n as [|n IH]; intros a; unfold dot; cbn [sum].
  - intros E. rewrite <- E. f_equal. ring.
  - intros E. apply IH. apply (ql_mono O H _ (x n)). rewrite <- E. f_equal. unfold dot. ring.
Qed.

Lemma pinv_tiny n c k F t t' : pinv n c k F t -> k < n -> t' k = f0 ->
  (forall j, j < k -> t' j = t j) -> pinv n c (S k) F t'.
Proof.
  intros HP Hn Hk0 Ht l j Hl Hlj Hj. destruct (Nat.eq_dec l k) as [->|Hne]; [left; exact Hk0|].
  rewrite Ht by lia. destruct (HP l j) as [E|E]; try lia; [left; exact E|right].
  apply (gtb_ssq _ (sum (n - l) (fun i => abssqr (if (j =? k) && (k <? l + i) then F (l + i)%nat k else f0)))).
  { eexists _, _. unfold dot, abssqr. reflexivity. }
  rewrite <- E. f_equal. unfold csum. rewrite <- (sum_add RL). apply sum_ext. intros i Hi.
  unfold Rk, abssqr. bsplit; subst; try lia; rewrite ?(fconj_0 RL); ring.
Qed.

Lemma pinv_swap n c k q F t : pinv n c k F t -> k <= q -> q < c -> k < c ->
  pinv n c k (fun i j => F i (swapc k q j)) t.
Proof.
  intros HP Hq Hqc Hkc l j Hl Hlj Hj.
  assert (Hs : swapc k q j < c /\ l <= swapc k q j).
  { unfold swapc. bsplit; lia. }
  destruct (HP l (swapc k q j)) as [E|E]; try lia; [left; exact E|right].
  rewrite <- E. replace (swapc k q l) with l by (unfold swapc; bsplit; lia).
  f_equal. apply csum_ext. intros i Hi. unfold Rk, swapc. bsplit; try lia; subst; try reflexivity; lia.
Qed.

(** ** Programs *)
Lemma wp_qr_search R W A k F m (Q : nat * K * K -> mem K -> Prop) :
  mval m A F -> k < mrows A -> k < mcols A -> rdok R W (inm A) ->
  (forall q, k <= q < mcols A -> (forall j, k <= j < mcols A -> gtb O (csum (mrows A) k F j) (csum (mrows A) k F q) = false) ->
     Q (q, csum (mrows A) k F q, sum (mcols A - k) (fun j => csum (mrows A) k F (k + j)%nat)) m) ->
  wp R W (qr_search O A (mrows A) (mcols A) k) m Q.
Proof.
  intros HA Hk Hkc Hr HQ. unfold qr_search. apply wp_bind.
  eapply wp_col_norm2; [exact HA|lia|lia|exact Hr|].
  set (C := csum (mrows A) k F).
  apply (wp_forS (fun j (s : nat * K * K) m1 => m1 = m /\ exists q, k <= q < j /\
     (forall l, k <= l < j -> gtb O (C l) (C q) = false) /\ s = (q, C q, sum (j - k) (fun l => C (k + l)%nat)))).
  - split; [reflexivity|]. exists k. split; [lia|]. split.
    + intros l Hl. replace l with k by lia. apply (ql_gtr O H).
    + replace (k + 1 - k) with 1 by lia. cbn [sum]. rewrite Nat.add_0_r. f_equal. ring.
  - intros j s m1 Hj (-> & q & Hq & Hm & ->). apply wp_bind.
    eapply wp_col_norm2; [exact HA|lia|lia|exact Hr|]. fold C. cbn [wp]. split; [reflexivity|].
    assert (ES : (sum (j - k) (fun l => C (k + l)%nat) + C j)%F = sum (S j - k) (fun l => C (k + l)%nat)).
    { replace (S j - k) with (S (j - k)) by lia. cbn [sum]. replace (k + (j - k)) with j by lia. reflexivity. }
    destruct (gtb O (C j) (C q)) eqn:Eg.
    + exists j. split; [lia|]. split; [|rewrite ES; reflexivity].
      intros l Hl. destruct (Nat.eq_dec l j) as [->|Hne]; [apply (ql_gtr O H)|].
      eapply (ql_gt O H); [|exact Eg]. apply Hm. lia.
    + exists q. split; [lia|]. split; [|rewrite ES; reflexivity].
      intros l Hl. destruct (Nat.eq_dec l j) as [->|Hne]; [exact Eg|]. apply Hm. lia.
  - intros s m1 (-> & q & Hq & Hm & ->).
    replace (k + 1 + (mcols A - (k + 1))) with (mcols A) in * by lia. apply HQ; assumption.
Qed.

Lemma wp_qr_swap R W A k q F m (Q : unit -> mem K -> Prop) :
  mwf A -> mval m A F -> k < mcols A -> q < mcols A -> wrok W (inm A) ->
  (forall m', mval m' A (fun i j => F i (swapc k q j)) -> keeps (inm A) m m' -> Q tt m') ->
  wp R W (qr_swap A (mrows A) k q) m Q.
Proof.
  intros Hwf HA Hk Hq Hw HQ. unfold qr_swap.
  assert (Hr : rdok R W (inm A)) by (apply rdok_w; exact Hw).
  apply (wp_for (fun i m1 => mval m1 A (fun i' j => if i' <? i then F i' (swapc k q j) else F i' j) /\ keeps (inm A) m m1)).
  - split; [|apply keeps_refl]. eapply mval_ext; [exact HA|]. intros i j _ _. cbn. reflexivity.
  - intros i m1 Hi [Hv Hkp]. wstep. wstep.
    apply wp_bind. eapply wp_mstore; [eapply mval_alloc; exact Hv|lia|lia|exact Hw|].
    eapply wp_mstore; [apply malloc_upd; eapply mval_alloc; exact Hv|lia|lia|exact Hw|].
    split.
    + eapply mval_ext; [eapply mval_upd_same; [exact Hwf|eapply mval_upd_same; [exact Hwf|exact Hv|lia|lia]|lia|lia]|].
      intros i' j Hi' Hj. unfold fupd2, swapc. bsplit; try lia; subst; try reflexivity; try lia.
    + apply keeps_upd_r; [|apply inm_ma; lia]. apply keeps_upd_r; [exact Hkp|apply inm_ma; lia].
  - intros m1 [Hv Hkp]. apply HQ; [|exact Hkp]. eapply mval_ext; [exact Hv|]. intros i j Hi Hj. cbv beta. bsplit; try lia. reflexivity.
Qed.

(** Exchanging entries of the list of pivots. *)
Lemma swapl_length p k q : length (swapl p k q) = length p.
Proof. unfold swapl. rewrite map_length, seq_length. reflexivity. Qed.
Lemma swapl_nth p k q j : j < length p -> nth j (swapl p k q) 0 = nth (swapc k q j) p 0.
Proof.
  intros Hj. unfold swapl. set (h := fun i => if i =? k then nth q p 0 else if i =? q then nth k p 0 else nth i p 0).
  rewrite (nth_indep _ 0 (h 0)) by (rewrite map_length, seq_length; exact Hj).
  rewrite map_nth, seq_nth by exact Hj. cbn [Nat.add]. unfold h, swapc. bsplit; reflexivity.
Qed.
Lemma swapl_perm p k q : k < length p -> q < length p -> Permutation (swapl p k q) p.
Proof.
  intros Hk Hq.
  assert (Hb : forall j, j < length p -> swapc k q j < length p) by (intros j Hj; unfold swapc; bsplit; lia).
  assert (Hinj : forall i j, swapc k q i = swapc k q j -> i = j).
  { intros i j. unfold swapc. bsplit; lia. }
  apply Permutation_sym, (Permutation_nth p (swapl p k q) 0). rewrite swapl_length. split; [reflexivity|].
  exists (swapc k q). split; [exact Hb|]. split.
  - intros x y _ _ E. apply Hinj. exact E.
  - intros x Hx. apply swapl_nth. exact Hx.
Qed.

(** The state after [k] steps with pivoting. *)
Definition qpst (small : K -> bool) A tau f (k : nat) (p : list nat) m0 F t E m : Prop :=
  let n := mrows A in let c := mcols A in
  qrinv small n c k (fun i j => f i (nth j p 0)) F t E /\ pinv n c k F t /\ mval m A F /\
  tval m tau k t /\ valloc m tau /\ length p = c /\ Permutation p (seq 0 c) /\
  keeps (qrkeep A tau (Nat.min n c)) m0 m.

Lemma qrinv_ext small n c k f f' F t E : qrinv small n c k f F t E ->
  (forall i j, i < n -> j < c -> f' i j = f i j) -> qrinv small n c k f' F t E.
Proof.
  intros [H1 H2] Hf. split; [|exact H2]. intros i j Hi Hj. rewrite Hf by assumption. apply H1; assumption.
Qed.

Lemma qpst_0 small A tau f m : mval m A f -> valloc m tau ->
  qpst small A tau f 0 (seq 0 (mcols A)) m f (fun _ => f0) (fun _ _ => f0) m.
Proof.
  intros HA Hal. split; [|split; [|split; [exact HA|split; [|split; [exact Hal|split; [apply seq_length|split; [apply Permutation_refl|apply keeps_refl]]]]]]].
  - eapply qrinv_ext; [apply (qrinv_0 L small (mrows A) (mcols A) f (fun _ => f0))|].
    intros i j Hi Hj. rewrite seq_nth by exact Hj. reflexivity.
  - intros l j Hl. lia.
  - intros l Hl. lia.
Qed.

(** The exchange of columns. *)
Lemma wp_qp_swap R W small A tau f k p m0 F t E m q (Q : unit -> mem K -> Prop) :
  mwf A -> qpst small A tau f k p m0 F t E m -> k <= q < mcols A -> wrok W (inm A) -> disj (inm A) (inv tau) ->
  k <= vdim tau ->
  (forall F' m', (forall j, csum (mrows A) k F' j = csum (mrows A) k F (swapc k q j)) ->
     qpst small A tau f k (if q =? k then p else swapl p k q) m0 F' t E m' -> Q tt m') ->
  wp R W (if q =? k then Ret tt else qr_swap A (mrows A) k q) m Q.
Proof.
  intros Hwf (HI & HP & HF & Ht & Hal & Hlp & Hpp & Hkp) Hq Hw Hd Hkv HQ.
  destruct (Nat.eqb_spec q k) as [->|Hne].
  - cbn [wp]. eapply (HQ F).
    + intros j. f_equal. unfold swapc. bsplit; congruence.
    + exact (conj HI (conj HP (conj HF (conj Ht (conj Hal (conj Hlp (conj Hpp Hkp))))))).
  - eapply wp_qr_swap; [exact Hwf|exact HF|lia|lia|exact Hw|].
    intros m' HF' Hk'. eapply HQ; [|split; [|split; [|split; [exact HF'|split; [|split; [|split; [|split]]]]]]].
    + intros j. apply csum_ext. reflexivity.
    + eapply qrinv_ext; [apply qrinv_swap with (q := q); [exact HI|lia|lia|lia]|].
      intros i j Hi Hj. cbv beta. rewrite swapl_nth by lia. reflexivity.
    + apply pinv_swap; [exact HP|lia|lia|lia].
    + intros j Hj. destruct Hk' as [_ Hk']. rewrite Hk'; [apply Ht, Hj|]. apply (disj_mv Hd). lia.
    + eapply valloc_keeps; [exact Hal|exact Hk'|apply disj_sym; exact Hd].
    + rewrite swapl_length. exact Hlp.
    + eapply Permutation_trans; [apply swapl_perm; lia|exact Hpp].
    + eapply keeps_trans; [exact Hkp|]. eapply keeps_mono; [|exact Hk']. intros a Ha. left. exact Ha.
Qed.

(** The reflection. *)
Lemma wp_qp_col R W small A tau f k p m0 F t E m (Q : unit -> mem K -> Prop) :
  mwf A -> qpst small A tau f k p m0 F t E m -> k < mrows A -> k < mcols A -> k < vdim tau ->
  wrok W (inm A) -> wrok W (inv tau) -> disj (inm A) (inv tau) -> small f0 = true ->
  (forall j, k <= j < mcols A -> gtb O (csum (mrows A) k F j) (csum (mrows A) k F k) = false) ->
  (forall F' t' E' m', qpst small A tau f (S k) p m0 F' t' E' m' -> Q tt m') ->
  wp R W (if small (csum (mrows A) k F k) then vstore tau k f0
          else qr_step O A tau (mrows A) (mcols A) k (csum (mrows A) k F k)) m Q.
Proof.
  intros Hwf (HI & HP & HF & Ht & Hal & Hlp & Hpp & Hkp) Hk Hkc Hkt Hw Hwt Hd Hs Hmax HQ.
  eapply (wp_qr_col L O H R W A tau _ F t E k small); eauto.
  intros G t' E' m' HI' HG Hc Ht1 Ht' Hal' Hk'. apply (HQ G t' E').
  split; [exact HI'|]. split; [|split; [exact HG|split; [exact Ht'|split; [exact Hal'|split; [exact Hlp|split; [exact Hpp|]]]]]].
  - destruct Hc as [(Hs1 & -> & Hk0)|(Hs1 & _ & HG' & Hk0)].
    + eapply pinv_tiny; eauto.
    + eapply pinv_step with (F := F); eauto. intros E0. rewrite E0 in Hs1. congruence.
  - eapply keeps_trans; [exact Hkp|]. eapply keeps_mono; [|exact Hk'].
    intros a [Hm| ->]; [left; exact Hm|right; exists k; split; [lia|reflexivity]].
Qed.

Lemma wp_qr_pivot_loop R W A tau f m (Q : list nat -> mem K -> Prop) :
  let r := Nat.min (mrows A) (mcols A) in
  mwf A -> mval m A f -> valloc m tau -> r <= vdim tau ->
  disj (inm A) (inv tau) -> wrok W (inm A) -> wrok W (inv tau) ->
  (forall p F t E m', qpst (tiny O) A tau f r p m F t E m' -> Q p m') ->
  wp R W (forS 0 r (fun k colpiv =>
    s <- qr_search O A (mrows A) (mcols A) k ;;
    let '(jmax, norm2, _) := s in
    (if jmax =? k then Ret tt else qr_swap A (mrows A) k jmax) ;;;
    (if tiny O norm2 then vstore tau k f0 else qr_step O A tau (mrows A) (mcols A) k norm2) ;;;
    Ret (if jmax =? k then colpiv else swapl colpiv k jmax))
    (seq 0 (mcols A))) m Q.
Proof.
  intros r Hwf HA Hal Hrt Hd Hw Hwt HQ.
  apply (wp_forS (fun k p m1 => exists F t E, qpst (tiny O) A tau f k p m F t E m1)).
  - eexists _, _, _. apply qpst_0; assumption.
  - intros k p m1 Hk (F & t & E & HS). apply wp_bind.
    eapply wp_qr_search; [apply HS|lia|lia|apply rdok_w, Hw|]. intros q Hq Hmax. cbv beta iota zeta.
    apply wp_bind. eapply wp_qp_swap; [exact Hwf|exact HS|exact Hq|exact Hw|exact Hd|lia|].
    intros F' m2 EC HS'. apply wp_bind.
    replace (csum (mrows A) k F q) with (csum (mrows A) k F' k).
    2:{ rewrite EC. f_equal. unfold swapc. rewrite Nat.eqb_refl. reflexivity. }
    eapply wp_qp_col; [exact Hwf|exact HS'|lia|lia|lia|exact Hw|exact Hwt|exact Hd|apply (ql_tiny O H)| |].
    + intros j Hj. rewrite !EC. replace (swapc k q k) with q by (unfold swapc; rewrite Nat.eqb_refl; reflexivity).
      apply Hmax. unfold swapc. bsplit; lia.
    + intros F2 t2 E2 m3 HS2. cbn [wp]. exists F2, t2, E2. exact HS2.
  - intros p m1 (F & t & E & HS). eapply HQ. exact HS.
Qed.
End QRP5.
