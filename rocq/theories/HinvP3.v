(** * The submatrices of an H-matrix and of its working storage *)
From Coq Require Import Arith Lia List Bool Permutation Ring.
From Verif Require Import Fld Ord Prog Arr View Loop Line Spec FactorSpec FactorP4 Cluster Block BlockP Avector Amatrix AvectorP AmatrixP AmatrixP2 Rkmatrix RkSpec RkP Factor Chol CholSpec Qr QrSpec Lr LrP
  CbP CbmSpec CbmP CopSpec OrthoP SepP SepP2 Htrunc HtSpec HtP HtP2 HtP3 HtP4 Hmatrix HmSpec HmP HmP3 HmP4 HlibSpec Harith HaSpec HaP HaP2 HaP3 HaP4 HaddSpec HmvP Hadd MgP MgP2 MgP3 HaddP HaddP2 HaddP3 HaddP4 HaddP5 HaddP6 Hmul HmulP HmulP2 HmulP3 HmulP4 HmulP5 Hfac HfacSpec HfacP HfacP2 HfacP3 HfacP4 HfacP5 Hinv HinvSpec HinvP HinvP2.
Import ListNotations.
Local Open Scope nat_scope.

Section Pair.
Context {K : fops} {G : ofops} (L : field_laws K) (O : qops K) (H : qlaws O) (HZ : exact_zero O).
Context (orth : Prop) (good : nat -> (nat -> K) -> Prop) (chosen : nat -> (nat -> K) -> nat -> Prop) (dom : nat -> nat -> Prop).
Context (svd : mat -> vec -> mat -> mat -> prog K unit) (rank : vec -> prog K nat) (Hsvd : svd_ok orth good dom svd) (Hrank : rank_ok good chosen rank).
Context (Hdom : forall r c, dom r c) (Hless : forall n s k, chosen n s k -> forall l, k <= l < n -> s l = f0).
Notation RL := (fl_ring K L).
Add Ring KringHinv3 : (rl_ring K (fl_ring K L)).
Local Notation hmx := (hmatrix G).
Implicit Types (m : mem K) (s x y : hmx) (l la lw : list hmx) (D E X Y Z : nat -> nat -> K) (rc : cptr G).
Variables (R : nat) (rc0 : cptr G) (m0 : mem K) (la0 lw0 : list hmx).
Hypothesis HLa : length la0 = R * R.
Hypothesis HLw : length lw0 = R * R.
Local Notation sel b la lw := (if b : bool then lw else la).
Hypothesis Hcl : forall (b : bool) i k s, i < R -> k < R -> nth_error (sel b la0 lw0) (i + k * R) = Some s -> hm_rc s = prt rc0 i /\ hm_cc s = prt rc0 k.
Hypothesis Hst0 : forall (b : bool) s, In s (sel b la0 lw0) -> hstd s /\ hpos s.
Local Notation hs := (fun i => csz (prt rc0 i)).
Local Notation opt := (option (nat -> nat -> K)).
Implicit Types (tg : bool -> nat -> nat -> opt) (b : bool).

Definition pr tg la lw m : Prop := length la = R * R /\
  wood m0 (la0 ++ lw0) (la ++ lw) (fun n => if n <? R * R then tg false (n mod R) (n / R) else tg true ((n - R * R) mod R) ((n - R * R) / R)) m.
Definition pos b (i k : nat) : nat := i + k * R + (if b then R * R else 0).
Definition updt tg b (i k : nat) (o : opt) : bool -> nat -> nat -> opt := fun b' i' k' => if Bool.eqb b' b && (i' =? i) && (k' =? k) then o else tg b' i' k'.
Definition oeq (r c : nat) (o o' : opt) : Prop :=
  match o, o' with Some D, Some D' => forall p q, p < r -> q < c -> D' p q = D p q | _, None => True | None, Some _ => False end.

Lemma pos_ok b i k : i < R -> k < R -> i + k * R < R * R.
Proof. intros. apply pos_lt; lia. Qed.
Lemma nth_pos b i k la lw : length la = R * R -> i < R -> k < R -> nth_error (la ++ lw) (pos b i k) = nth_error (sel b la lw) (i + k * R).
Proof.
  intros HL Hi Hk. pose proof (pos_ok b i k Hi Hk). unfold pos. destruct b; [rewrite nth_error_app2 by lia; f_equal; lia|rewrite Nat.add_0_r; apply nth_error_app1; lia].
Qed.
Lemma tg_pos tg b i k : i < R -> k < R -> (if pos b i k <? R * R then tg false (pos b i k mod R) (pos b i k / R) else tg true ((pos b i k - R * R) mod R) ((pos b i k - R * R) / R)) = tg b i k.
Proof.
  intros Hi Hk. pose proof (pos_ok b i k Hi Hk). unfold pos. destruct b.
  - destruct (Nat.ltb_spec (i + k * R + R * R) (R * R)); [lia|]. replace (i + k * R + R * R - R * R) with (i + k * R) by lia. destruct (divp R i k Hi) as [-> ->]. reflexivity.
  - rewrite Nat.add_0_r. destruct (Nat.ltb_spec (i + k * R) (R * R)); [|lia]. destruct (divp R i k Hi) as [-> ->]. reflexivity.
Qed.
Lemma pos_cases n : n < R * R + R * R -> exists b i k, i < R /\ k < R /\ n = pos b i k.
Proof.
  intros Hn. destruct (Nat.lt_ge_cases n (R * R)) as [Hl|Hl].
  - destruct (posinv R R n Hl) as (i & k & Hi & Hk & ->). exists false, i, k. unfold pos. split; [exact Hi|]. split; [exact Hk|lia].
  - destruct (posinv R R (n - R * R)) as (i & k & Hi & Hk & E); [lia|]. exists true, i, k. unfold pos. split; [exact Hi|]. split; [exact Hk|lia].
Qed.
Lemma pos_inj2 b i k b' i' k' : i < R -> k < R -> i' < R -> k' < R -> pos b i k = pos b' i' k' -> b = b' /\ i = i' /\ k = k'.
Proof.
  intros Hi Hk Hi' Hk' E. pose proof (pos_ok b i k Hi Hk). pose proof (pos_ok b i' k' Hi' Hk'). unfold pos in E.
  assert (b = b') by (destruct b, b'; try reflexivity; lia). subst b'. split; [reflexivity|]. apply (pos_inj R); [assumption|assumption|lia].
Qed.
Lemma pr_lw tg la lw m : pr tg la lw m -> length lw = R * R.
Proof. intros (HL & HW). pose proof (wo_len _ _ _ _ _ HW) as E. rewrite !app_length, HLa, HLw, HL in E. lia. Qed.

Lemma pr_get tg la lw m b i k : pr tg la lw m -> i < R -> k < R -> exists s, nth_error (sel b la lw) (i + k * R) = Some s /\
  hm_rc s = prt rc0 i /\ hm_cc s = prt rc0 k /\ hst (tg b i k) m s /\ hmut m s /\ hstd s /\ hpos s /\ exists s0, nth_error (sel b la0 lw0) (i + k * R) = Some s0 /\ hlike s0 s.
Proof.
  intros HP Hi Hk. pose proof HP as (HL & HW). pose proof (pr_lw _ _ _ _ HP) as HL'. destruct (nth_ex (sel b la lw) (i + k * R)) as (s & Hs).
  { destruct b; [rewrite HL'|rewrite HL]; apply pos_lt; lia. }
  pose proof Hs as Hs'. rewrite <- (nth_pos b i k la lw HL Hi Hk) in Hs'. destruct (wood_get _ _ _ _ _ _ _ HW Hs') as (s0 & H0 & H1 & H2 & H3). rewrite tg_pos in H2 by assumption.
  rewrite (nth_pos b i k la0 lw0 HLa Hi Hk) in H0. exists s. split; [exact Hs|]. destruct (hlike_cl _ _ H1) as [C1 C2]. destruct (Hcl b i k s0 Hi Hk H0) as [C3 C4]. destruct (Hst0 b s0 (nth_error_In _ _ H0)) as [S1 S2].
  split; [congruence|]. split; [congruence|]. split; [exact H2|]. split; [exact H3|]. split; [eapply hstd_like; eassumption|]. split; [eapply hpos_like; eassumption|]. eauto.
Qed.
Lemma pr_dis tg la lw m b i k b' i' k' s s' : pr tg la lw m -> i < R -> k < R -> i' < R -> k' < R -> nth_error (sel b la lw) (i + k * R) = Some s -> nth_error (sel b' la lw) (i' + k' * R) = Some s' ->
  (b <> b' \/ i <> i' \/ k <> k') -> disj (hfp s) (hfp s') /\ disj (inh s) (hfp s').
Proof.
  intros HP Hi Hk Hi' Hk' Hs Hs' N. pose proof HP as (HL & HW). assert (Hd : disj (hfp s) (hfp s')).
  { rewrite <- (nth_pos b i k la lw HL Hi Hk) in Hs. rewrite <- (nth_pos b' i' k' la lw HL Hi' Hk') in Hs'. eapply (wo_dis _ _ _ _ _ HW); [exact Hs|exact Hs'|]. intros E. apply pos_inj2 in E; try assumption. destruct E as (E1 & E2 & E3). destruct N as [N|[N|N]]; contradiction. }
  split; [exact Hd|]. intros a Ha. apply Hd, inh_hfp, Ha.
Qed.
Lemma hst_oeq o o' m s : hst o m s -> oeq (hrows s) (hcols s) o o' -> hst o' m s.
Proof. destruct o as [D|]; destruct o' as [D'|]; cbn; intros HR HE; [eapply hrep_ext; [exact HR|exact HE]|eapply room_rep; exact HR|contradiction|exact HR]. Qed.
Lemma pr_ext tg tg' la lw m : pr tg la lw m -> (forall b i k, i < R -> k < R -> oeq (hs i) (hs k) (tg b i k) (tg' b i k)) -> pr tg' la lw m.
Proof.
  intros HP HE. pose proof HP as (HL & HW). pose proof (pr_lw _ _ _ _ HP) as HL'. split; [exact HL|]. pose proof HW as [A1 A2 A3 A4]. constructor; try assumption.
  intros n s s' H1 H2. destruct (A2 n s s' H1 H2) as (B1 & B2 & B3). split; [exact B1|]. split; [|exact B3].
  destruct (pos_cases n) as (b & i & k & Hi & Hk & ->). { rewrite <- HL at 1. rewrite <- HL', <- app_length. apply nth_error_Some. congruence. }
  rewrite tg_pos in * by assumption. eapply hst_oeq; [exact B2|]. rewrite (nth_pos b i k la0 lw0 HLa Hi Hk) in H1. destruct (Hcl b i k s Hi Hk H1) as [C3 C4]. destruct (hlike_cl _ _ B1) as [C1 C2].
  unfold hrows, hcols. rewrite C1, C2, C3, C4. apply HE; assumption.
Qed.
Lemma lupd_app1 {A} (l1 l2 : list A) k (x : A) : k < length l1 -> lupd (l1 ++ l2) k x = lupd l1 k x ++ l2.
Proof. revert k. induction l1 as [|y l1 IH]; intros [|k] Hk; cbn in *; [lia|lia|reflexivity|]. rewrite IH by lia. reflexivity. Qed.
Lemma lupd_app2 {A} (l1 l2 : list A) k (x : A) : lupd (l1 ++ l2) (length l1 + k) x = l1 ++ lupd l2 k x.
Proof. induction l1 as [|y l1 IH]; cbn; [reflexivity|]. rewrite IH. reflexivity. Qed.
Lemma lupd_pos b i k la lw s : length la = R * R -> i < R -> k < R -> lupd (la ++ lw) (pos b i k) s = (if b then la else lupd la (i + k * R) s) ++ (if b then lupd lw (i + k * R) s else lw).
Proof.
  intros HL Hi Hk. pose proof (pos_ok b i k Hi Hk). unfold pos. destruct b; [|rewrite Nat.add_0_r; apply lupd_app1; lia]. replace (i + k * R + R * R) with (length la + (i + k * R)) by lia. apply lupd_app2.
Qed.
Lemma tg_upd tg b i k o n : i < R -> k < R -> n < R * R + R * R ->
  (if n <? R * R then updt tg b i k o false (n mod R) (n / R) else updt tg b i k o true ((n - R * R) mod R) ((n - R * R) / R)) = if n =? pos b i k then o else if n <? R * R then tg false (n mod R) (n / R) else tg true ((n - R * R) mod R) ((n - R * R) / R).
Proof.
  intros Hi Hk Hn. destruct (pos_cases n Hn) as (b' & i' & k' & Hi' & Hk' & ->). rewrite !tg_pos by assumption. unfold updt. destruct (Nat.eqb_spec (pos b' i' k') (pos b i k)) as [E|N].
  - apply pos_inj2 in E; try assumption. destruct E as (-> & -> & ->). rewrite Bool.eqb_reflx, !Nat.eqb_refl. reflexivity.
  - destruct (Bool.eqb b' b && (i' =? i) && (k' =? k)) eqn:E; [|reflexivity]. apply andb_true_iff in E as [E E3%Nat.eqb_eq]. apply andb_true_iff in E as [E1%Bool.eqb_prop E2%Nat.eqb_eq]. subst. contradiction.
Qed.
Lemma wood_put' m1 l0 l V V' m k s o s' m' : wood m1 l0 l V m -> nth_error l k = Some s -> wpost m s o s' m' -> (forall i, i < length l -> V' i = if i =? k then o else V i) -> wood m1 l0 (lupd l k s') V' m'.
Proof.
  intros HF Hk HP HV. pose proof (wood_put m1 l0 l V (fun i => if i =? k then o else V i) m k s o s' m' HF Hk HP (fun i => eq_refl)) as [A1 A2 A3 A4].
  constructor; try assumption. intros n t t' Ht Ht'. destruct (A2 n t t' Ht Ht') as (B1 & B2 & B3). split; [exact B1|]. split; [|exact B3]. rewrite HV; [exact B2|]. rewrite <- (lupd_length l k s'). apply nth_error_Some. congruence.
Qed.
Lemma pr_put tg la lw m b i k s o s' m' : pr tg la lw m -> i < R -> k < R -> nth_error (sel b la lw) (i + k * R) = Some s -> wpost m s o s' m' ->
  pr (updt tg b i k o) (if b then la else lupd la (i + k * R) s') (if b then lupd lw (i + k * R) s' else lw) m'.
Proof.
  intros HP Hi Hk Hs HW'. pose proof HP as (HL & HW). pose proof (pr_lw _ _ _ _ HP) as HL'. split; [destruct b; [exact HL|rewrite lupd_length; exact HL]|]. rewrite <- lupd_pos by assumption.
  eapply wood_put'; [exact HW|rewrite nth_pos by assumption; exact Hs|exact HW'|]. intros n Hn. apply tg_upd; [exact Hi|exact Hk|]. rewrite app_length in Hn. lia.
Qed.
(** The same block of both is changed. *)
Lemma pr_put2 tg la lw m i k s t o o2 s' t' m' : pr tg la lw m -> i < R -> k < R -> nth_error la (i + k * R) = Some s -> nth_error lw (i + k * R) = Some t ->
  hst o m' s' -> hmut m' s' -> hlike s s' -> hst o2 m' t' -> hmut m' t' -> hlike t t' -> disj (hfp s') (hfp t') ->
  moves m (fun c => hfp s c \/ hfp t c) (fun c => hfp s' c \/ hfp t' c) m' ->
  pr (updt (updt tg false i k o) true i k o2) (lupd la (i + k * R) s') (lupd lw (i + k * R) t') m'.
Proof.
  intros HP Hi Hk Hs Ht A1 A2 A3 B1 B2 B3 Hd HM. pose proof HP as (HL & HW). pose proof (pr_lw _ _ _ _ HP) as HL'. split; [rewrite lupd_length; exact HL|].
  assert (E1 : lupd la (i + k * R) s' ++ lupd lw (i + k * R) t' = lupd (lupd (la ++ lw) (pos false i k) s') (pos true i k) t').
  { rewrite (lupd_pos false) by assumption. rewrite (lupd_pos true) by (rewrite ?lupd_length; assumption). reflexivity. }
  rewrite E1. assert (HW2 := wood_put2 _ _ _ _ (fun n => if n =? pos false i k then o else if n =? pos true i k then o2 else if n <? R * R then tg false (n mod R) (n / R) else tg true ((n - R * R) mod R) ((n - R * R) / R)) _ (pos false i k) (pos true i k) s t o o2 s' t' m' HW).
  assert (Hne : pos false i k <> pos true i k) by (intros E; apply pos_inj2 in E; try assumption; destruct E; discriminate).
  destruct (HW2 Hne) as [C1 C2 C3 C4]; try assumption.
  { rewrite (nth_pos false) by assumption. exact Hs. }
  { rewrite (nth_pos true) by assumption. exact Ht. }
  { reflexivity. }
  constructor; try assumption. intros n u u' Hu Hu'. destruct (C2 n u u' Hu Hu') as (D1 & D2 & D3). split; [exact D1|]. split; [|exact D3].
  assert (Hn : n < R * R + R * R). { rewrite <- HL at 1. rewrite <- HL', <- app_length. rewrite <- (lupd_length (la ++ lw) (pos false i k) s'), <- (lupd_length (lupd (la ++ lw) (pos false i k) s') (pos true i k) t'). apply nth_error_Some. congruence. }
  rewrite (tg_upd (updt tg false i k o) true i k o2 n Hi Hk Hn), (tg_upd tg false i k o n Hi Hk Hn). destruct (Nat.eqb_spec n (pos true i k)) as [->|N]; [|exact D2]. destruct (Nat.eqb_spec (pos true i k) (pos false i k)); [lia|exact D2].
Qed.

(** ** Operations on single blocks *)
Lemma wp_clear_at tg la lw m b i k (Q : list hmx -> mem K -> Prop) : pr tg la lw m -> i < R -> k < R ->
  (forall l' m', pr (updt tg b i k (Some (fun _ _ => f0))) (if b then la else l') (if b then l' else lw) m' -> Q l' m') ->
  wp TT TT (clear_at (sel b la lw) (i + k * R)) m Q.
Proof.
  intros HP Hi Hk HQ. destruct (pr_get tg la lw m b i k HP Hi Hk) as (s & Hs & A1 & A2 & A3 & A4 & _). unfold clear_at. apply wp_bind. rewrite (sget_some _ _ _ Hs). cbn [wp].
  apply wp_bind. apply wp_clear; [eapply hst_room; exact A3|exact A4|]. intros s' m' HP'. cbn [wp]. apply HQ.
  pose proof (pr_put tg la lw m b i k s (Some (fun _ _ => f0)) s' m' HP Hi Hk Hs HP') as HX. destruct b; exact HX.
Qed.
Lemma wp_addmul_at alpha tg la lw m b i k bx j by' X Y Z x y (Q : list hmx -> mem K -> Prop) : pr tg la lw m -> i < R -> j < R -> k < R ->
  nth_error (sel bx la lw) (i + j * R) = Some x -> nth_error (sel by' la lw) (j + k * R) = Some y -> tg bx i j = Some X -> tg by' j k = Some Y -> tg b i k = Some Z ->
  (bx <> b \/ j <> k) -> (by' <> b \/ j <> i) ->
  (forall l' m', pr (updt tg b i k (Some (fun p q => Z p q + alpha * sum (hs j) (fun r => X p r * Y r q))%F)) (if b then la else l') (if b then l' else lw) m' -> Q l' m') ->
  wp TT TT (addmul_at O svd rank alpha x y (sel b la lw) (i + k * R)) m Q.
Proof.
  intros HP Hi Hj Hk Hx Hy HX HY HV N1 N2 HQ.
  destruct (pr_get tg la lw m b i k HP Hi Hk) as (s & Hs & A1 & A2 & A3 & A4 & A5 & A6 & _). rewrite HV in A3. cbn [hst] in A3.
  destruct (pr_get tg la lw m bx i j HP Hi Hj) as (x' & Hx' & B1 & B2 & B3 & B4 & B5 & B6 & _). rewrite Hx in Hx'. injection Hx' as <-. rewrite HX in B3. cbn [hst] in B3.
  destruct (pr_get tg la lw m by' j k HP Hj Hk) as (y' & Hy' & C1 & C2 & C3 & C4 & C5 & C6 & _). rewrite Hy in Hy'. injection Hy' as <-. rewrite HY in C3. cbn [hst] in C3.
  unfold addmul_at. apply wp_bind. rewrite (sget_some _ _ _ Hs). cbn [wp]. apply wp_bind.
  eapply (wp_addmul L O H HZ orth good chosen dom svd rank Hsvd Hrank Hdom Hless alpha false false x y s m X Y Z); try assumption.
  - cbn. congruence.
  - cbn. congruence.
  - cbn. congruence.
  - eapply (pr_dis tg la lw m bx i j b i k); try eassumption. tauto.
  - eapply (pr_dis tg la lw m by' j k b i k); try eassumption. tauto.
  - intros s' m' HP'. cbn [wp]. apply HQ. cbn [tcc] in HP'. rewrite B2 in HP'. pose proof (pr_put tg la lw m b i k s (Some (fun p q => Z p q + alpha * sum (hs j) (fun r => X p r * Y r q))%F) s' m' HP Hi Hk Hs HP') as HR. destruct b; exact HR.
Qed.
End Pair.
