(** * The QR decompositions *)
From Coq Require Import Arith NArith Lia List Bool Ring Permutation.
From Verif Require Import Fld Prog View Spec Loop Line Avector Amatrix AvectorP AmatrixP Factor FactorSpec FactorP FactorP2 Chol CholSpec Qr QrSpec QrP QrP2 QrP3.

Section QRP4.
Context {K : fops} (L : field_laws K) (O : qops K) (H : qlaws O).
Notation RL := (fl_ring K L).
Add Ring KringQ4 : (rl_ring K (fl_ring K L)).
Implicit Types (m : mem K) (R W : addr -> Prop) (A X : mat) (F G f E : nat -> nat -> K) (t y w : nat -> K).

(** One step, with the test for the norm given. *)
Lemma wp_qr_col R W A tau f F t E k (small : K -> bool) (n2 : K) m (Q : unit -> mem K -> Prop) :
  mwf A -> mval m A F -> valloc m tau -> k < mrows A -> k < mcols A -> k < vdim tau ->
  disj (inm A) (inv tau) -> wrok W (inm A) -> wrok W (inv tau) ->
  qrinv small (mrows A) (mcols A) k f F t E -> tval m tau k t -> small f0 = true ->
  n2 = csum (mrows A) k F k ->
  (forall G t' E' m', qrinv small (mrows A) (mcols A) (S k) f G t' E' -> mval m' A G ->
     (small n2 = true /\ G = F /\ t' k = f0 \/
      small n2 = false /\ E' = E /\ qrstep O (mrows A) (mcols A) k F n2 G /\ t' k = step_beta O F k n2) ->
     (forall j, j < k -> t' j = t j) ->
     tval m' tau (S k) t' -> valloc m' tau -> keeps (fun a => inm A a \/ a = va tau k) m m' -> Q tt m') ->
  wp R W (if small n2 then vstore tau k f0 else qr_step O A tau (mrows A) (mcols A) k n2) m Q.
Proof.
  intros Hwf HA Hal Hk Hkc Hkt Hd Hw Hwt Hi Ht Hs E2 HQ. subst n2.
  destruct (small (csum (mrows A) k F k)) eqn:Es.
  - eapply wp_vstore; [exact Hal|exact Hkt|exact Hwt|].
    destruct (qrinv_tiny L small (mrows A) (mcols A) k f F t (fupd t k f0) E) as [E' HE]; auto.
    { unfold fupd. rewrite Nat.eqb_refl. reflexivity. }
    { intros j Hj. unfold fupd. destruct (Nat.eqb_spec j k); [lia|reflexivity]. }
    eapply HQ; [exact HE| |left| | |apply valloc_upd; exact Hal|].
    + apply mval_upd_other; [exact HA|]. apply (disj_mv Hd Hkt).
    + unfold fupd. rewrite Nat.eqb_refl. auto.
    + intros j Hj. unfold fupd. destruct (Nat.eqb_spec j k); [lia|reflexivity].
    + intros j Hj. rewrite get_upd by (eapply valloc_get; [exact Hal|exact Hkt]). unfold fupd.
      destruct (Nat.eqb_spec j k) as [->|Hne].
      * destruct (addr_eqb_spec (va tau k) (va tau k)); [reflexivity|contradiction].
      * destruct (addr_eqb_spec (va tau j) (va tau k)) as [Ev|_]; [apply va_inj in Ev; contradiction|]. apply Ht. lia.
    + apply keeps_upd. right. reflexivity.
  - eapply wp_qr_step; eauto. intros G m' HG HvG Htk Hto Hkp.
    eapply (HQ G (fupd t k (step_beta O F k (csum (mrows A) k F k))) E).
    + eapply (qrinv_step L O H) with (F := F); eauto.
      * intros E0. rewrite E0 in Es. congruence.
      * unfold fupd. rewrite Nat.eqb_refl. reflexivity.
      * intros j Hj. unfold fupd. destruct (Nat.eqb_spec j k); [lia|reflexivity].
    + exact HvG.
    + right. unfold fupd. rewrite Nat.eqb_refl. auto.
    + intros j Hj. unfold fupd. destruct (Nat.eqb_spec j k); [lia|reflexivity].
    + intros j Hj. unfold fupd. destruct (Nat.eqb_spec j k) as [->|Hne]; [exact Htk|].
      rewrite Hto by lia. apply Ht. lia.
    + intros j Hj. destruct (Nat.eq_dec j k) as [->|Hne]; [rewrite Htk; discriminate|].
      rewrite Hto by assumption. apply Hal, Hj.
    + exact Hkp.
Qed.


Definition qrkeep A tau (r : nat) (a : addr) : Prop := inm A a \/ inl (va tau) r a.

Lemma wp_qr_loop R W A tau f m (Q : unit -> mem K -> Prop) :
  let r := Nat.min (mrows A) (mcols A) in
  mwf A -> mval m A f -> valloc m tau -> r <= vdim tau ->
  disj (inm A) (inv tau) -> wrok W (inm A) -> wrok W (inv tau) ->
  (forall F t E m', qrinv (tiny O) (mrows A) (mcols A) r f F t E -> mval m' A F ->
     tval m' tau r t -> keeps (qrkeep A tau r) m m' -> Q tt m') ->
  wp R W (for_ 0 r (fun k =>
    norm2 <- col_norm2 A (mrows A) k k ;;
    if tiny O norm2 then vstore tau k f0 else qr_step O A tau (mrows A) (mcols A) k norm2)) m Q.
Proof.
  intros r Hwf HA Hal Hrt Hd Hw Hwt HQ.
  apply (wp_for (fun k m1 => exists F t E, qrinv (tiny O) (mrows A) (mcols A) k f F t E /\ mval m1 A F /\
     tval m1 tau k t /\ valloc m1 tau /\ keeps (qrkeep A tau r) m m1)).
  - exists f, (fun _ => f0), (fun _ _ => f0). split; [apply (qrinv_0 L)|]. split; [exact HA|]. split; [intros k Hk; lia|].
    split; [exact Hal|apply keeps_refl].
  - intros k m1 Hk (F & t & E & HI & HF & Ht & Hal1 & Hkp). apply wp_bind.
    eapply wp_col_norm2; [exact HF|lia|lia|apply rdok_w, Hw|].
    eapply (wp_qr_col R W A tau f F t E k (tiny O)); eauto; try lia; [apply (ql_tiny O H)|].
    intros G t' E' m' HI' HG _ _ Ht' Hal' Hk'. exists G, t', E'. split; [exact HI'|]. split; [exact HG|].
    split; [exact Ht'|]. split; [exact Hal'|]. eapply keeps_trans; [exact Hkp|].
    eapply keeps_mono; [|exact Hk']. intros a [Ha| ->]; [left; exact Ha|right; exists k; split; [lia|reflexivity]].
  - intros m1 (F & t & E & HI & HF & Ht & _ & Hkp). eapply HQ; eauto.
Qed.

Lemma wp_qrdecomp R W A tau f m (Q : vec -> mem K -> Prop) :
  let r := Nat.min (mrows A) (mcols A) in
  mwf A -> mval m A f -> valloc m tau -> r <= vdim tau ->
  disj (inm A) (inv tau) -> wrok W (inm A) -> wrok W (inv tau) ->
  (forall F t E m', qrinv (tiny O) (mrows A) (mcols A) r f F t E -> mval m' A F ->
     tval m' tau r t -> keeps (qrkeep A tau r) m m' -> Q tau m') ->
  wp R W (qrdecomp_amatrix O A tau) m Q.
Proof.
  intros r Hwf HA Hal Hrt Hd Hw Hwt HQ. unfold qrdecomp_amatrix, qr_tau. fold r.
  destruct (Nat.ltb_spec (vdim tau) r); [lia|]. apply wp_bind. cbn [wp]. apply wp_bind.
  eapply wp_qr_loop; eauto.
Qed.

(** With a vector [tau] that is too small: it is replaced by a new one. *)
Lemma wp_qr_tau A tau f m (Q : vec -> mem K -> Prop) :
  let r := Nat.min (mrows A) (mcols A) in
  let W := (fun _ : addr => True) in
  mval m A f -> valloc m tau -> disj (inm A) (inv tau) ->
  (vdim tau < r -> vown tau = true /\ vblk tau < next m /\ mblk A < next m /\ mblk A <> vblk tau) ->
  (forall tau' m', (tau' = tau /\ r <= vdim tau \/ vdim tau < r /\ vblk tau' = next m /\ voff tau' = 0 /\ vdim tau' = r /\ vown tau' = true) ->
     mval m' A f -> valloc m' tau' -> r <= vdim tau' -> disj (inm A) (inv tau') ->
     keeps (fun a => vdim tau < r /\ (fst a = vblk tau \/ fst a = next m)) m m' -> Q tau' m') ->
  wp W W (qr_tau A tau) m Q.
Proof.
  intros r W HA Hal Hd Hs HQ. unfold qr_tau. fold r.
  destruct (Nat.ltb_spec (vdim tau) r) as [Hlt|Hge].
  - destruct (Hs Hlt) as (Ho & Hb & HbA & Hne). unfold resize_avector. wstep; [exact Ho|].
    destruct (Nat.eqb_spec r (vdim tau)); [lia|]. cbn [bind pfree palloc wp].
    split; [exact Hb|]. split; [intros o; exact I|].
    match goal with |- Q ?x ?y => set (tau' := x); set (m' := y) end. cbn in m'.
    assert (G1 : forall a, fst a <> vblk tau -> fst a <> next m -> get m' a = get m a).
    { intros a H1 H2. unfold m'. rewrite get_alloc_old by exact H2. rewrite get_dealloc.
      destruct (Nat.eqb_spec (fst a) (vblk tau)); [contradiction|reflexivity]. }
    apply HQ.
    + right. repeat split; auto.
    + intros i j Hi Hj. rewrite G1; [apply HA; assumption| |]; cbn; lia.
    + intros i Hi. unfold m', va, tau'. cbn. change (next m) with (next (dealloc m (vblk tau))).
      rewrite get_alloc_new. cbn in Hi. destruct (Nat.ltb_spec i r); [discriminate|lia].
    + cbn. lia.
    + intros a (i & j & Hi & Hj & ->) (i' & Hi' & E). unfold ma, va, tau' in E. cbn in E. injection E. lia.
    + split; [cbn; lia|]. intros a Ha. destruct (Nat.eq_dec (fst a) (vblk tau)) as [E|E]; [exfalso; apply Ha; auto|].
      destruct (Nat.eq_dec (fst a) (next m)) as [E'|E']; [exfalso; apply Ha; auto|]. apply G1; assumption.
  - cbn [wp]. apply HQ; auto. apply keeps_refl.
Qed.

Lemma wp_qrdecomp_resize A tau f m (Q : vec -> mem K -> Prop) :
  let r := Nat.min (mrows A) (mcols A) in
  let W := (fun _ : addr => True) in
  mwf A -> mval m A f -> valloc m tau -> disj (inm A) (inv tau) ->
  (vdim tau < r -> vown tau = true /\ vblk tau < next m /\ mblk A < next m /\ mblk A <> vblk tau) ->
  (forall tau' F t E m', (tau' = tau /\ r <= vdim tau \/ vdim tau < r /\ vblk tau' = next m /\ voff tau' = 0 /\ vdim tau' = r /\ vown tau' = true) ->
     qrinv (tiny O) (mrows A) (mcols A) r f F t E -> mval m' A F -> tval m' tau' r t ->
     keeps (fun a => inm A a \/ inv tau a \/ vdim tau < r /\ (fst a = vblk tau \/ fst a = next m)) m m' -> Q tau' m') ->
  wp W W (qrdecomp_amatrix O A tau) m Q.
Proof.
  intros r W Hwf HA Hal Hd Hs HQ. unfold qrdecomp_amatrix. apply wp_bind.
  eapply wp_qr_tau; eauto. intros tau' m1 Ht HA1 Hal1 Hr1 Hd1 Hk1. apply wp_bind.
  eapply wp_qr_loop; eauto; try (intros a _; exact I).
  intros F t E m2 HI HF Htv Hk2. cbn [wp]. eapply HQ; eauto.
  eapply keeps_trans; [eapply keeps_mono; [|exact Hk1]; cbn; tauto|].
  eapply keeps_mono; [|exact Hk2]. intros a [Ha|(i & Hi & ->)]; [left; exact Ha|].
  destruct Ht as [[-> Hr]|(Hlt & Hb & _)].
  - right; left. apply inv_va. fold r in Hi. lia.
  - right; right. split; [exact Hlt|right; exact Hb].
Qed.
End QRP4.
