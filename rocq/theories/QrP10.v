(** * The pivoted and the truncated QR decomposition; consequences of the loop invariants *)
From Coq Require Import Arith NArith Lia List Bool Ring Permutation.
From Verif Require Import Fld Prog View Spec Loop Line Avector Amatrix AvectorP AmatrixP Factor FactorSpec FactorP FactorP2 LrP
  Chol CholSpec Qr QrSpec QrP QrP2 QrP3 QrP4 QrP5 QrP6 QrP7 QrP8 QrP9.

Section QRP10.
Context {K : fops} (L : field_laws K) (O : qops K) (H : qlaws O).
Notation RL := (fl_ring K L).
Add Ring KringQ10 : (rl_ring K (fl_ring K L)).
Implicit Types (m : mem K) (A X : mat) (F G f E M Q g : nat -> nat -> K) (t y w b z : nat -> K).
Notation up F := (tripart false false F).

Lemma Rk_up n c F l j : l < n -> j < c -> Rk F (Nat.min n c) l j = up F l j.
Proof. intros Hl Hj. unfold Rk, tripart. bsplit; try lia; subst; try reflexivity; lia. Qed.

(** The loop invariant after all steps, in terms of the upper triangular factor. *)
Lemma qrinv_final n c f F t E : let r := Nat.min n c in
  qrinv (tiny O) n c r f F t E ->
  unitary n (qmat n F t r) /\
  (forall i j, i < n -> j < c -> f i j = (mmul n (qmat n F t r) (up F) i j + E i j)%F) /\
  (forall j, j < c -> tiny O (dot n (fun i => E i j) (fun i => E i j)) = true).
Proof.
  intros r (H1 & H2 & H3 & H4).
  split; [apply (qmat_unitary L); exact H2|]. split.
  - intros i j Hi Hj. rewrite H1 by assumption.
    rewrite (mmul_ext n _ (qmat n F t r) (up F) (Rk F r)); [reflexivity|reflexivity|].
    intros l Hl. symmetry. apply Rk_up; assumption.
  - assert (Z : forall j, (forall i, i < n -> E i j = f0) -> tiny O (dot n (fun i => E i j) (fun i => E i j)) = true).
    { intros j E0. etransitivity; [|apply (ql_tiny O H)]. f_equal. apply (sum_0 RL). intros i Hi. rewrite E0 by exact Hi. ring. }
    intros j Hj. destruct (Nat.lt_ge_cases j r) as [Hr|Hr]; [|apply Z; intros; apply H3; assumption].
    destruct (H4 j Hr) as [E0|E0]; [apply Z, E0|].
    apply (ql_tmono O H _ (F j j)). etransitivity; [|exact E0]. f_equal. unfold dot, abssqr. ring.
Qed.

Lemma pinv_final n c F t : let r := Nat.min n c in pinv O n c r F t ->
  forall l j, l < r -> l <= j -> j < c ->
    t l = f0 \/ gtb O (sum (n - l) (fun i => abssqr (up F (l + i)%nat j))) (abssqr (F l l)) = false.
Proof.
  intros r HP l j Hl Hlj Hj. destruct (HP l j Hl Hlj Hj) as [E|E]; [left; exact E|right].
  etransitivity; [|exact E]. f_equal. apply sum_ext. intros i Hi. unfold r. rewrite Rk_up by lia. reflexivity.
Qed.

Lemma qr_diag_rect n c Q F g : c <= n -> (forall i j, i < n -> j < c -> g i j = mmul n Q (up F) i j) ->
  fullrank n c g -> forall i, i < c -> F i i <> f0.
Proof.
  intros Hc Hf HR. destruct (first_zero L c F) as [HD|(p & Hp & H1 & H2)].
  - intros i Hi. specialize (HD i Hi). unfold tripart in HD. rewrite Nat.eqb_refl in HD. exact HD.
  - exfalso. destruct (up_singular L c F p Hp H1 H2) as (v & (i & Hi & Hv) & HZ). apply Hv. apply (HR v); [|exact Hi].
    intros l Hl.
    transitivity (mvec c (mmul n Q (up F)) v l).
    { apply sum_ext. intros j Hj. rewrite Hf by assumption. reflexivity. }
    rewrite (mvec_mmul_rect L). apply (sum_0 RL). intros q Hq.
    destruct (Nat.lt_ge_cases q c) as [Hqc|Hqc]; [rewrite HZ by exact Hqc; ring|].
    assert (E : mvec c (up F) v q = f0).
    { apply (sum_0 RL). intros j Hj. unfold tripart. bsplit; try lia. ring. }
    rewrite E. ring.
Qed.

(** ** Pivoting *)
Lemma qrchg_trans A tau tau' r m m1 m2 : tauof r tau tau' m ->
  keeps (fun a => vdim tau < r /\ (fst a = vblk tau \/ fst a = next m)) m m1 ->
  keeps (qrkeep A tau' r) m1 m2 -> keeps (qrchg A tau r m) m m2.
Proof.
  intros Ht Hk1 Hk2.
  eapply keeps_trans; [eapply keeps_mono; [|exact Hk1]; unfold qrchg; cbn; tauto|].
  eapply keeps_mono; [|exact Hk2]. intros a [Ha|(i & Hi & ->)]; [left; exact Ha|].
  destruct Ht as [[-> Hr]|(Hlt & Hb & _)].
  - right; left. apply inv_va. lia.
  - right; right. split; [exact Hlt|right; exact Hb].
Qed.

Lemma wp_qrdecomp_pivot A tau f m (Q : vec * nat * list nat -> mem K -> Prop) :
  let r := Nat.min (mrows A) (mcols A) in
  let W := (fun _ : addr => True) in
  mwf A -> mval m A f -> valloc m tau -> disj (inm A) (inv tau) ->
  (vdim tau < r -> vown tau = true /\ vblk tau < next m /\ mblk A < next m /\ mblk A <> vblk tau) ->
  (forall tau' p F t E m1 m', tauof r tau tau' m -> qpst O (tiny O) A tau' f r p m1 F t E m' ->
     keeps (qrchg A tau r m) m m' -> Q (tau', r, p) m') ->
  wp W W (qrdecomp_pivot_amatrix O A tau) m Q.
Proof.
  intros r W Hwf HA Hal Hd Hs HQ. unfold qrdecomp_pivot_amatrix. apply wp_bind.
  eapply wp_qr_tau; eauto. intros tau' m1 Ht HA1 Hal1 Hr1 Hd1 Hk1. apply wp_bind.
  eapply (wp_qr_pivot_loop L O H); eauto; try (intros a _; exact I).
  intros p F t E m2 HI. cbn [wp]. eapply HQ; [exact Ht|exact HI|].
  eapply qrchg_trans; [exact Ht|exact Hk1|]. apply HI.
Qed.

Lemma wp_qrdecomp_rank A tau tm (eps : K) f m (Q : vec * nat * list nat -> mem K -> Prop) :
  let r := Nat.min (mrows A) (mcols A) in
  let W := (fun _ : addr => True) in
  mwf A -> mval m A f -> valloc m tau -> disj (inm A) (inv tau) ->
  (vdim tau < r -> vown tau = true /\ vblk tau < next m /\ mblk A < next m /\ mblk A <> vblk tau) ->
  (forall tau' k p F t m1 m', tauof r tau tau' m -> k <= r ->
     qpst O zerob A tau' f k p m1 F t (fun _ _ => f0) m' ->
     (k = r \/ stopped O (mrows A) (mcols A) k tm eps f F) ->
     keeps (qrchg A tau r m) m m' -> Q (Vec (vblk tau') (voff tau') k (vown tau'), k, p) m') ->
  wp W W (qrdecomp_rank_amatrix O A tau tm eps) m Q.
Proof.
  intros r W Hwf HA Hal Hd Hs HQ. unfold qrdecomp_rank_amatrix. apply wp_bind.
  eapply wp_qr_tau; eauto. intros tau' m1 Ht HA1 Hal1 Hr1 Hd1 Hk1. apply wp_bind.
  eapply (wp_qr_rank_loop L O H W W A tau' f tm eps m1) with (k := 0); eauto; try (intros a _; exact I); try lia.
  2:{ apply qpst_0; assumption. }
  intros k p F t m2 Hk HI Hst. cbn [wp]. unfold shrink_avector. apply wp_bind, wp_bind.
  fold r in Hr1, Hk. unfold passert. destruct (Nat.leb_spec k (vdim tau')); [|lia]. cbn [wp].
  eapply HQ; [exact Ht|exact Hk|exact HI|exact Hst|].
  eapply qrchg_trans; [exact Ht|exact Hk1|]. apply HI.
Qed.
End QRP10.
