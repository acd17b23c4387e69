(** * The programs for the QR decomposition *)
From Coq Require Import Arith NArith Lia List Bool Ring.
From Verif Require Import Fld Prog View Spec Loop Line Avector Amatrix AvectorP AmatrixP Factor FactorSpec FactorP FactorP2 Chol CholSpec Qr QrSpec QrP QrP2.

Section QRP3.
Context {K : fops} (L : field_laws K) (O : qops K) (H : qlaws O).
Notation RL := (fl_ring K L).
Add Ring KringQ3 : (rl_ring K (fl_ring K L)).
Implicit Types (m : mem K) (R W : addr -> Prop) (A X : mat) (F G f E : nat -> nat -> K) (t y w : nat -> K).

(** The entries that store the vector of reflection [k]. *)
Definition okk (k i j : nat) : Prop := j = k /\ k < i.

Definition refl_line (rows : nat) F (k : nat) (beta : K) y (i : nat) : K :=
  if i <? rows then (y i - beta * dot rows (rvec F k) y * rvec F k i)%F else y i.

Lemma wp_apply_refl R W A k (beta : K) c N y F m (Q : unit -> mem K -> Prop) :
  linj c N -> lval m c N y -> mrows A <= N -> k < mrows A -> k < mcols A ->
  pval m A (okk k) F -> disj (inp A (okk k)) (inl c N) -> rdok R W (inp A (okk k)) -> wrok W (inl c N) ->
  (forall m', lval m' c N (refl_line (mrows A) F k beta y) -> keeps (inl c N) m m' -> Q tt m') ->
  wp R W (apply_refl A (mrows A) k beta c) m Q.
Proof.
  intros Hj Hl HN Hk Hkc HA Hd Hr Hw HQ. unfold apply_refl. set (rows := mrows A) in *.
  assert (Rc : forall i, i < N -> R (c i) \/ W (c i)) by (intros i Hi; right; apply Hw; exists i; auto).
  assert (Wc : forall i, i < N -> W (c i)) by (intros i Hi; apply Hw; exists i; auto).
  assert (RA : forall i, k < i -> i < rows -> R (ma A i k) \/ W (ma A i k)).
  { intros i H1 H2. apply Hr. exists i, k. unfold okk. repeat split; auto. }
  assert (VA : forall m' i, pval m' A (okk k) F -> k < i -> i < rows -> get m' (ma A i k) = Val (F i k)).
  { intros m' i Hp H1 H2. apply Hp; unfold okk; auto. }
  assert (PK : forall m', keeps (inl c N) m m' -> pval m' A (okk k) F).
  { intros m' Hk'. eapply pval_keeps; eauto. }
  apply wp_bind. eapply wp_pload; [apply Hl; lia|apply Rc; lia|].
  apply wp_bind.
  eapply wp_fold with (g := fun i => (y k + sum (i - (k + 1)) (fun l => fconj (F (k + 1 + l)%nat k) * y (k + 1 + l)%nat))%F).
  { rewrite Nat.sub_diag. cbn [sum]. ring. }
  { intros i Hi. apply wp_bind. eapply wp_pload; [apply VA; [exact HA|lia|lia]|apply RA; lia|].
    apply wp_bind. eapply wp_pload; [apply Hl; lia|apply Rc; lia|]. cbn [wp]. split; [|reflexivity].
    replace (S i - (k + 1)) with (S (i - (k + 1))) by lia. cbn [sum].
    replace (k + 1 + (i - (k + 1))) with i by lia. ring. }
  replace (k + 1 + (rows - (k + 1)) - (k + 1)) with (rows - (k + 1)) by lia.
  rewrite <- (dot_rvec L rows F k y Hk). set (D := dot rows (rvec F k) y). cbv zeta.
  apply wp_bind. eapply wp_pload; [apply Hl; lia|apply Rc; lia|].
  apply wp_bind. eapply wp_pstore; [rewrite Hl by lia; discriminate|apply Wc; lia|].
  set (m1 := upd m (c k) _).
  assert (K1 : keeps (inl c N) m m1) by (apply keeps_upd; exists k; split; [lia|reflexivity]).
  assert (L1 : lval m1 c N (fun i => if i =? k then (y k - D * beta)%F else y i)).
  { eapply lval_step; [exact Hj| |exact Hl| |]; [shelve| |reflexivity].
    apply wrote_upd; [rewrite Hl by lia; discriminate|reflexivity]. Unshelve. lia. }
  eapply wp_lup with (g := fun i => (y i - D * beta * F i k)%F); [exact Hj|exact L1|lia| |].
  - intros i m2 Hi Hl2 Hk2. assert (K2 : keeps (inl c N) m m2) by (eapply keeps_trans; eauto).
    apply wp_bind. eapply wp_pload; [apply Hl2; lia|apply Rc; lia|].
    apply wp_bind. eapply wp_pload; [apply VA; [apply PK, K2|lia|lia]|apply RA; lia|].
    eapply wp_pstore; [rewrite Hl2 by lia; discriminate|apply Wc; lia|].
    apply wrote_upd; [rewrite Hl2 by lia; discriminate|]. cbv beta. bsplit; try lia. reflexivity.
  - intros m' Hl' Hk'. apply HQ; [|eapply keeps_trans; eauto].
    eapply lval_ext; [exact Hl'|]. intros i Hi. cbv beta. unfold refl_line. fold D. unfold rvec.
    bsplit; try lia; subst; try ring; reflexivity.
Qed.

Lemma wp_col_norm2 R W A k j F m (Q : K -> mem K -> Prop) :
  mval m A F -> k <= mrows A -> j < mcols A -> rdok R W (inm A) ->
  Q (csum (mrows A) k F j) m -> wp R W (col_norm2 A (mrows A) k j) m Q.
Proof.
  intros HA Hk Hj Hr HQ. unfold col_norm2.
  eapply wp_fold with (g := fun i => sum (i - k) (fun l => abssqr (F (k + l)%nat j))).
  { rewrite Nat.sub_diag. reflexivity. }
  { intros i Hi. wstep. wstep. split; [|reflexivity]. replace (S i - k) with (S (i - k)) by lia.
    cbn [sum]. replace (k + (i - k)) with i by lia. reflexivity. }
  replace (k + (mrows A - k) - k) with (mrows A - k) by lia. exact HQ.
Qed.

(** The reflected remaining columns. *)
Lemma wp_qr_step R W A tau F k (n2 : K) m (Q : unit -> mem K -> Prop) :
  mwf A -> mval m A F -> valloc m tau -> k < mrows A -> k < mcols A -> k < vdim tau ->
  disj (inm A) (inv tau) -> wrok W (inm A) -> wrok W (inv tau) ->
  (forall G m', qrstep O (mrows A) (mcols A) k F n2 G -> mval m' A G ->
     get m' (va tau k) = Val (step_beta O F k n2) ->
     (forall j, j < vdim tau -> j <> k -> get m' (va tau j) = get m (va tau j)) ->
     keeps (fun a => inm A a \/ a = va tau k) m m' -> Q tt m') ->
  wp R W (qr_step O A tau (mrows A) (mcols A) k n2) m Q.
Proof.
  intros Hwf HA Hal Hk Hkc Hkt Hd Hw Hwt HQ. unfold qr_step.
  assert (Hr : rdok R W (inm A)) by (apply rdok_w; exact Hw).
  wstep. cbv zeta.
  change (rsqrt (qr O) n2) with (rsqrt O n2).
  change (f1 / (n2 + fabs O (F k k) * rsqrt O n2) * ((fabs O (F k k) + rsqrt O n2) * (fabs O (F k k) + rsqrt O n2)))%F with (step_beta O F k n2).
  change (fconj (sgn1 O (F k k)) / (fabs O (F k k) + rsqrt O n2))%F with (step_gamma O F k n2).
  change (fopp (sgn1 O (F k k)) * rsqrt O n2)%F with (step_alpha O F k n2).
  apply wp_bind.
  eapply wp_mcol with (A := A) (j := k) (g := fun i => (F i k * step_gamma O F k n2)%F); [exact Hwf|exact HA|lia|lia| |].
  { intros i m1 Hi Hv1 Hk1. wstep. wstep. wrote_tac. }
  intros m1 Hv1 Hk1.
  assert (Hal1 : valloc m1 tau) by (eapply valloc_keeps; [exact Hal|exact Hk1|apply disj_sym; exact Hd]).
  apply wp_bind. eapply wp_vstore; [exact Hal1|lia|exact Hwt|]. set (m2 := upd m1 (va tau k) _).
  assert (Hv2 : mval m2 A (fun i j => if j =? k then (if (k + 1 <=? i) && (i <? k + 1 + (mrows A - (k + 1))) then (F i k * step_gamma O F k n2)%F else F i j) else F i j)).
  { unfold m2. apply mval_upd_other; [|apply (disj_mv Hd Hkt)]. eapply mval_ext; [exact Hv1|].
    intros i j Hi Hj. cbv beta. bsplit; try lia; reflexivity. }
  apply wp_bind. eapply wp_mstore; [eapply mval_alloc; exact Hv2|lia|lia|exact Hw|].
  set (m3 := upd m2 (ma A k k) _).
  set (F0 := fun i j => if j =? k then (if i =? k then step_alpha O F k n2 else if k <? i then (F i k * step_gamma O F k n2)%F else F i k) else F i j).
  assert (Hv3 : mval m3 A F0).
  { unfold m3. eapply mval_ext; [eapply mval_upd_same; [exact Hwf|exact Hv2|exact Hk|exact Hkc]|].
    intros i j Hi Hj. unfold fupd2, F0. cbv beta. bsplit; try lia; subst; reflexivity. }
  assert (Ht3 : get m3 (va tau k) = Val (step_beta O F k n2)).
  { unfold m3. rewrite get_upd_other. 2:{ intros E. apply (disj_mv Hd Hkt). rewrite E. apply inm_ma; assumption. }
    unfold m2. rewrite get_upd by (eapply valloc_get; [exact Hal1|exact Hkt]).
    destruct (addr_eqb_spec (va tau k) (va tau k)); [reflexivity|contradiction]. }
  assert (Ho3 : forall j, j < vdim tau -> j <> k -> get m3 (va tau j) = get m (va tau j)).
  { intros j Hj Hne. unfold m3. rewrite get_upd_other. 2:{ intros E. apply (disj_mv Hd Hj). rewrite E. apply inm_ma; assumption. }
    unfold m2. rewrite get_upd_other. 2:{ intros E. apply va_inj in E. congruence. }
    destruct Hk1 as [_ Hk1]. apply Hk1. apply (disj_mv Hd Hj). }
  assert (Hk3 : keeps (fun a => inm A a \/ a = va tau k) m m3).
  { unfold m3, m2. apply keeps_upd_r; [|left; apply inm_ma; assumption]. apply keeps_upd_r; [|right; reflexivity].
    eapply keeps_mono; [|exact Hk1]. auto. }
  set (beta := step_beta O F k n2) in *.
  set (G := fun i j => if k <? j then (F i j - beta * dot (mrows A) (rvec F0 k) (fun l => F l j) * rvec F0 k i)%F else F0 i j).
  assert (RV : forall i, rvec G k i = rvec F0 k i).
  { intros i. unfold rvec, G. rewrite Nat.ltb_irrefl. reflexivity. }
  apply (wp_for (fun j m4 => mval m4 A (fun i l => if (k <? l) && (l <? j) then G i l else F0 i l) /\ keeps (inm A) m3 m4)).
  - split; [|apply keeps_refl]. eapply mval_ext; [exact Hv3|]. intros i j Hi Hj. bsplit; try lia; reflexivity.
  - intros j m4 Hj [Hv4 Hk4].
    eapply wp_apply_refl with (N := mrows A) (y := fun i => F i j) (F := F0).
    + apply linj_col, Hwf.
    + intros i Hi. rewrite Hv4 by lia. f_equal. unfold F0. bsplit; try lia; reflexivity.
    + lia.
    + lia.
    + lia.
    + intros i l Hi Hl [-> Hil]. rewrite Hv4 by lia. f_equal. bsplit; try lia; reflexivity.
    + intros a (i & l & Hi & Hl & [-> Hil] & ->) (i' & Hi' & Eq). apply ma_inj in Eq; auto. lia.
    + intros a Ha. apply Hr. eapply inp_inm; eauto.
    + intros a (i & Hi & ->). apply Hw, inm_ma; lia.
    + intros m5 Hl5 Hk5. split.
      * eapply mval_ext; [eapply mval_col; [exact Hwf| |exact Hv4|exact Hl5|exact Hk5]|]; [lia|].
        intros i l Hi Hl. cbv beta. unfold refl_line. bsplit; try lia; try reflexivity.
        subst l. unfold G. bsplit; try lia. reflexivity.
      * eapply keeps_trans; [exact Hk4|]. eapply keeps_col with (k := j); [lia|exact Hk5].
  - intros m4 [Hv4 Hk4]. apply (HQ G).
    + split; [|split; [|split; [|split]]].
      * intros i j Hi Hj. unfold G, F0. bsplit; try lia; reflexivity.
      * intros i Hi. unfold G, F0. bsplit; try lia; reflexivity.
      * unfold G, F0. bsplit; try lia; reflexivity.
      * intros i Hi Hi'. unfold G, F0. bsplit; try lia; reflexivity.
      * intros i j Hi Hj Hj'. rewrite RV. rewrite (dot_ext' _ (rvec G k) (rvec F0 k) _ (fun l => F l j)); [|intros; apply RV|reflexivity].
        unfold G. bsplit; try lia. reflexivity.
    + eapply mval_ext; [exact Hv4|]. intros i j Hi Hj. cbv beta. unfold G. bsplit; try lia; reflexivity.
    + destruct Hk4 as [_ Hk4]. rewrite Hk4; [exact Ht3|]. apply (disj_mv Hd Hkt).
    + intros j Hj Hne. destruct Hk4 as [_ Hk4]. rewrite Hk4; [apply Ho3; assumption|]. apply (disj_mv Hd Hj).
    + eapply keeps_trans; [exact Hk3|]. eapply keeps_mono; [|exact Hk4]. auto.
Qed.
End QRP3.
