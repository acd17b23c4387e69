(** * Collections of H-matrices, some of them without contents, and clearing of H-matrices *)
From Coq Require Import Arith Lia List Bool Permutation.
From Verif Require Import Fld Ord Prog Arr View Loop Line Spec FactorSpec FactorP4 Cluster Block BlockP Avector Amatrix AvectorP AmatrixP AmatrixP2 Rkmatrix RkSpec RkP Factor Chol CholSpec Qr QrSpec
  CbP CbmSpec CbmP CopSpec OrthoP SepP SepP2 Htrunc HtSpec HtP HtP2 HtP3 HtP4 Hmatrix HmSpec HmP HmP3 HmP4 HlibSpec Harith HaSpec HaP HaP2 HaP3 HaP4 HaddSpec HmvP Hadd MgP MgP2 MgP3 HaddP HaddP2 HaddP3 HaddP4 HaddP5 HaddP6 Hmul HmulP HmulP2 HmulP3 HmulP4 HmulP5 Hfac HfacSpec HfacP HfacP2 HfacP3 HfacP4 HinvSpec.
Import ListNotations.
Local Open Scope nat_scope.

Lemma nth_error_skipn {A} k : forall (l : list A) n, nth_error (skipn k l) n = nth_error l (k + n).
Proof. induction k as [|k IH]; intros [|x l] n; cbn; auto. destruct n; reflexivity. Qed.
Lemma nth_error_ext {A} : forall l l' : list A, (forall n, nth_error l n = nth_error l' n) -> l = l'.
Proof.
  induction l as [|x l IH]; intros [|y l'] HE; [reflexivity|specialize (HE 0); discriminate|specialize (HE 0); discriminate|].
  f_equal; [specialize (HE 0); cbn in HE; congruence|]. apply IH. intros n. exact (HE (S n)).
Qed.

Section Wood.
Context {K : fops} {G : ofops}.
Local Notation hmx := (hmatrix G).
Implicit Types (m : mem K) (h s x y z a : hmx) (l : list hmx) (D E : nat -> nat -> K) (r : rkm) (rc cc : cptr G).

(** ** Storage of H-matrices *)
Lemma room_rep m h D : hrep m h D -> hroom m h.
Proof.
  induction 1 as [rc cc r ds D H1 H2 H3|rc cc f ds D H1 H2 H3|rc cc l rs cs ds hs ws D P1 P2 P3 P4 P5 P6 P7 IH].
  - constructor; assumption.
  - constructor; try assumption. intros i j Hi Hj. rewrite (H3 i j Hi Hj). discriminate.
  - econstructor; try eassumption. intros s Hs. apply In_nth_error in Hs as (k & Hk). assert (Hlt : k < rs * cs) by (rewrite <- P3; apply nth_error_Some; congruence).
    destruct (posinv rs cs k Hlt) as (i & j & Hi & Hj & ->). eapply (IH i j); eassumption.
Qed.
Lemma room_lt m h : hroom m h -> forall b : addr, hmut m h -> hfp h b -> fst b < next m.
Proof.
  induction 1 as [rc cc r ds H1 H2|rc cc f ds H1 H2 H3|rc cc l rs cs ds hs ws P1 P2 P3 P4 P5 P6 P7 IH]; intros b HM Ha.
  - apply hfp_rk in Ha. inversion HM as [? ? ? ? _ _ (_ & _ & _ & B1 & B2 & _)| |]; subst. destruct Ha as [E|E]; rewrite E; assumption.
  - apply hfp_full in Ha. apply alloc_lt. destruct Ha as (i & j & Hi & Hj & ->). apply H3; assumption.
  - apply hfp_super in Ha as (k & s & Hk & Ha). pose proof (nth_error_In _ _ Hk) as Hs. inversion HM as [| |? ? ? ? ? ? H1 H2]; subst. exact (IH s Hs b (H1 s Hs) Ha).
Qed.
Lemma room_moves m (F F' : addr -> Prop) m' h : moves m F F' m' -> hroom m h -> disj (hfp h) F -> hroom m' h.
Proof.
  intros HM HR. induction HR as [rc cc r ds H1 H2|rc cc f ds H1 H2 H3|rc cc l rs cs ds hs ws P1 P2 P3 P4 P5 P6 P7 IH]; intros Hd.
  - constructor; assumption.
  - constructor; try assumption. intros i j Hi Hj. rewrite (moves_get _ _ _ _ _ HM); [apply H3; assumption|apply H3; assumption|]. intros HF. apply (Hd (ma f i j)); [|exact HF]. apply hfp_full. apply inm_ma; assumption.
  - econstructor; try eassumption. intros s Hs. apply (IH s Hs). intros b Hb. apply Hd. eapply hfp_son; [reflexivity|exact Hs|exact Hb].
Qed.

(** The contents are known or not. *)
Definition hst (o : option (nat -> nat -> K)) m h : Prop := match o with Some D => hrep m h D | None => hroom m h end.
Lemma hst_room o m h : hst o m h -> hroom m h.
Proof. destruct o as [D|]; [apply room_rep|auto]. Qed.
Lemma hst_lt o m h (b : addr) : hst o m h -> hmut m h -> hfp h b -> fst b < next m.
Proof. intros H1 H2. eapply room_lt; [eapply hst_room; exact H1|exact H2]. Qed.
Lemma hst_moves o m (F F' : addr -> Prop) m' h : moves m F F' m' -> hst o m h -> disj (hfp h) F -> hst o m' h.
Proof. destruct o as [D|]; intros HM HR Hd; [eapply hrep_moves; [exact HM|exact HR|]; intros b Hb; apply Hd, inh_hfp, Hb|eapply room_moves; eassumption]. Qed.
Definition wpost m h (o : option (nat -> nat -> K)) h' m' : Prop := hst o m' h' /\ hmut m' h' /\ hlike h h' /\ moves m (hfp h) (hfp h') m'.

(** ** Collections *)
Record wood m0 (l0 l : list hmx) (V : nat -> option (nat -> nat -> K)) m : Prop := Wood {
  wo_len : length l = length l0;
  wo_son : forall k s s', nth_error l0 k = Some s -> nth_error l k = Some s' -> hlike s s' /\ hst (V k) m s' /\ hmut m s';
  wo_dis : forall i k s t, nth_error l i = Some s -> nth_error l k = Some t -> i <> k -> disj (hfp s) (hfp t);
  wo_mov : moves m0 (fpl l0) (fpl l) m }.
Lemma wood_get m0 l0 l V m k s' : wood m0 l0 l V m -> nth_error l k = Some s' -> exists s, nth_error l0 k = Some s /\ hlike s s' /\ hst (V k) m s' /\ hmut m s'.
Proof.
  intros HF Hk. destruct (nth_error l0 k) as [s|] eqn:E; [exists s; split; [reflexivity|]; eapply wo_son; eassumption|].
  apply nth_error_None in E. rewrite <- (wo_len _ _ _ _ _ HF) in E. apply nth_error_None in E. congruence.
Qed.
Lemma wood_start m l V : (forall k s, nth_error l k = Some s -> hst (V k) m s /\ hmut m s) ->
  (forall i k s t, nth_error l i = Some s -> nth_error l k = Some t -> i <> k -> disj (hfp s) (hfp t)) -> wood m l l V m.
Proof.
  intros HS HD. constructor; [reflexivity| |exact HD|].
  - intros k s s' H1 H2. rewrite H1 in H2. injection H2 as <-. destruct (HS k s H1) as [A B]. split; [eapply hlike_refl; exact B|auto].
  - apply moves_refl. intros b (k & s & Hk & Ha). destruct (HS k s Hk). eapply hst_lt; eassumption.
Qed.
(** The parts [I] are changed. *)
Lemma wood_step m0 l0 l l' V V' m m' (I : nat -> Prop) (Idec : forall k, I k \/ ~ I k) : wood m0 l0 l V m -> length l' = length l ->
  (forall k, ~ I k -> nth_error l' k = nth_error l k /\ V' k = V k) ->
  (forall k s s', I k -> nth_error l k = Some s -> nth_error l' k = Some s' -> hlike s s' /\ hst (V' k) m' s' /\ hmut m' s') ->
  (forall i k s t, I i -> I k -> nth_error l' i = Some s -> nth_error l' k = Some t -> i <> k -> disj (hfp s) (hfp t)) ->
  moves m (fun b => exists k s, I k /\ nth_error l k = Some s /\ hfp s b) (fun b => exists k s, I k /\ nth_error l' k = Some s /\ hfp s b) m' ->
  wood m0 l0 l' V' m'.
Proof.
  intros HF HL HN HI HD HM.
  assert (Hout : forall k s, ~ I k -> nth_error l k = Some s -> disj (hfp s) (fun b => exists k s, I k /\ nth_error l k = Some s /\ hfp s b)).
  { intros k s Nk Hs b Hb (k' & s' & Ik & Hs' & Hb'). assert (N : k <> k') by (intros ->; contradiction). exact (wo_dis _ _ _ _ _ HF k k' s s' Hs Hs' N b Hb Hb'). }
  constructor.
  - rewrite HL. apply HF.
  - intros k s s' H1 H2. destruct (Idec k) as [Ik|Nk].
    + destruct (nth_ex l k) as (t & Ht); [rewrite <- HL; apply nth_error_Some; congruence|]. destruct (HI k t s' Ik Ht H2) as (B1 & B2 & B3).
      destruct (wo_son _ _ _ _ _ HF k s t H1 Ht) as (C1 & _). split; [eapply hlike_trans; eassumption|auto].
    + destruct (HN k Nk) as [E1 E2]. rewrite E1 in H2. destruct (wo_son _ _ _ _ _ HF k s s' H1 H2) as (B1 & B2 & B3). split; [exact B1|]. pose proof (Hout k s' Nk H2) as Hd. rewrite E2.
      split; [eapply hst_moves; [exact HM|exact B2|exact Hd]|eapply hmut_moves; [exact HM|exact B3|exact Hd]].
  - assert (Hx : forall i k s t, ~ I i -> I k -> nth_error l' i = Some s -> nth_error l' k = Some t -> disj (hfp s) (hfp t)).
    { intros i k s t Ni Ik Hs Ht. rewrite (proj1 (HN i Ni)) in Hs. destruct (wood_get _ _ _ _ _ _ _ HF Hs) as (s0 & _ & _ & B2 & B3).
      pose proof (moves_disj _ _ _ (hfp s) _ HM (fun b Hb => hst_lt _ _ _ b B2 B3 Hb) (Hout i s Ni Hs)) as Hd. intros b Hb Hb'. apply (Hd b Hb). eauto. }
    intros i k s t H1 H2 Hne. destruct (Idec i) as [Ii|Ni]; destruct (Idec k) as [Ik|Nk].
    + exact (HD i k s t Ii Ik H1 H2 Hne).
    + intros b Hb Hb'. exact (Hx k i t s Nk Ii H2 H1 b Hb' Hb).
    + exact (Hx i k s t Ni Ik H1 H2).
    + rewrite (proj1 (HN i Ni)) in H1. rewrite (proj1 (HN k Nk)) in H2. exact (wo_dis _ _ _ _ _ HF i k s t H1 H2 Hne).
  - eapply moves_trans; [apply HF|]. set (rest := fun b : addr => exists i t, ~ I i /\ nth_error l i = Some t /\ hfp t b).
    eapply moves_ext; [| |eapply (moves_frame _ _ _ rest); [exact HM|]].
    + intros b. split.
      * intros [(k & s & _ & Hs & Hb)|(k & s & _ & Hs & Hb)]; exists k, s; auto.
      * intros (k & s & Hs & Hb). destruct (Idec k) as [Ik|Nk]; [left|right]; exists k, s; auto.
    + intros b. split.
      * intros [(k & s & _ & Hs & Hb)|(k & s & Nk & Hs & Hb)]; exists k, s; [auto|]. rewrite (proj1 (HN k Nk)). auto.
      * intros (k & s & Hs & Hb). destruct (Idec k) as [Ik|Nk]; [left|right]; exists k, s; [auto|]. rewrite (proj1 (HN k Nk)) in Hs. auto.
    + intros b (k & s & Nk & Hs & Hb). destruct (wood_get _ _ _ _ _ _ _ HF Hs) as (s0 & _ & _ & B2 & B3). eapply hst_lt; eassumption.
Qed.
Lemma wood_put m0 l0 l V V' m k s o s' m' : wood m0 l0 l V m -> nth_error l k = Some s -> wpost m s o s' m' -> (forall i, V' i = if i =? k then o else V i) -> wood m0 l0 (lupd l k s') V' m'.
Proof.
  intros HF Hk (P1 & P2 & P3 & P4) HV. assert (Hkl : k < length l) by (apply nth_error_Some; congruence).
  assert (Hnew : nth_error (lupd l k s') k = Some s') by (rewrite lupd_nth, Nat.eqb_refl, (proj2 (Nat.ltb_lt _ _) Hkl); reflexivity).
  eapply (wood_step m0 l0 l (lupd l k s') V V' m m' (fun i => i = k)); [|exact HF|apply lupd_length| | | |].
  - intros i. destruct (Nat.eq_dec i k); auto.
  - intros i Ni. rewrite HV, lupd_nth. destruct (Nat.eqb_spec i k); [contradiction|auto].
  - intros i t t' -> Ht Ht'. rewrite Hnew in Ht'. rewrite Hk in Ht. injection Ht as <-. injection Ht' as <-. rewrite HV, Nat.eqb_refl. auto.
  - intros i j t u -> -> _ _ N. lia.
  - eapply moves_ext; [| |exact P4].
    + intros b. split; [intros Hb; exists k, s; auto|]. intros (i & t & -> & Ht & Hb). rewrite Hk in Ht. injection Ht as <-. exact Hb.
    + intros b. split; [intros Hb; exists k, s'; auto|]. intros (i & t & -> & Ht & Hb). rewrite Hnew in Ht. injection Ht as <-. exact Hb.
Qed.
Lemma wood_put2 m0 l0 l V V' m k k2 s s2 o o2 s' s2' m' : wood m0 l0 l V m -> k <> k2 -> nth_error l k = Some s -> nth_error l k2 = Some s2 ->
  hst o m' s' -> hmut m' s' -> hlike s s' -> hst o2 m' s2' -> hmut m' s2' -> hlike s2 s2' -> disj (hfp s') (hfp s2') ->
  moves m (fun b => hfp s b \/ hfp s2 b) (fun b => hfp s' b \/ hfp s2' b) m' ->
  (forall i, V' i = if i =? k then o else if i =? k2 then o2 else V i) -> wood m0 l0 (lupd (lupd l k s') k2 s2') V' m'.
Proof.
  intros HF Hne Hk Hk2 P1 P2 P3 Q1 Q2 Q3 Hd P4 HV. assert (Hkl : k < length l) by (apply nth_error_Some; congruence). assert (Hkl2 : k2 < length l) by (apply nth_error_Some; congruence).
  assert (Hnth : forall i, nth_error (lupd (lupd l k s') k2 s2') i = if i =? k then Some s' else if i =? k2 then Some s2' else nth_error l i).
  { intros i. rewrite lupd_nth, lupd_nth, lupd_length. destruct (Nat.eqb_spec i k2) as [->|N2]; destruct (Nat.eqb_spec i k) as [->|N1] || destruct (Nat.eqb_spec k2 k) as [E|N1]; try lia; rewrite ?(proj2 (Nat.ltb_lt _ _) Hkl2), ?(proj2 (Nat.ltb_lt _ _) Hkl); reflexivity. }
  eapply (wood_step m0 l0 l _ V V' m m' (fun i => i = k \/ i = k2)); [|exact HF|rewrite !lupd_length; reflexivity| | | |].
  - intros i. destruct (Nat.eq_dec i k); destruct (Nat.eq_dec i k2); auto. right. lia.
  - intros i Ni. rewrite HV, Hnth. destruct (Nat.eqb_spec i k); [tauto|]. destruct (Nat.eqb_spec i k2); [tauto|auto].
  - intros i t t' Ii Ht Ht'. rewrite Hnth in Ht'. rewrite HV. destruct (Nat.eqb_spec i k) as [->|N1]; [|destruct (Nat.eqb_spec i k2) as [->|N2]; [|lia]].
    + rewrite Hk in Ht. injection Ht as <-. injection Ht' as <-. auto.
    + rewrite Hk2 in Ht. injection Ht as <-. injection Ht' as <-. auto.
  - intros i j t u Ii Ij Ht Hu N. rewrite Hnth in Ht, Hu. destruct (Nat.eqb_spec i k) as [->|N1]; destruct (Nat.eqb_spec j k) as [->|N2]; [lia| | |].
    + destruct (Nat.eqb_spec j k2); [|lia]. injection Ht as <-. injection Hu as <-. exact Hd.
    + destruct (Nat.eqb_spec i k2); [|lia]. injection Ht as <-. injection Hu as <-. intros b Hb Hb'. exact (Hd b Hb' Hb).
    + lia.
  - eapply moves_ext; [| |exact P4].
    + intros b. split; [intros [Hb|Hb]; [exists k, s|exists k2, s2]; auto|]. intros (i & t & [->| ->] & Ht & Hb); [rewrite Hk in Ht|rewrite Hk2 in Ht]; injection Ht as <-; auto.
    + intros b. split.
      * intros [Hb|Hb]; [exists k, s'|exists k2, s2']; rewrite Hnth; [rewrite Nat.eqb_refl; auto|]. rewrite Nat.eqb_refl. destruct (Nat.eqb_spec k2 k); [lia|auto].
      * intros (i & t & Ii & Ht & Hb). rewrite Hnth in Ht. destruct (Nat.eqb_spec i k); [injection Ht as <-; auto|]. destruct (Nat.eqb_spec i k2); [injection Ht as <-; auto|lia].
Qed.

(** ** Clearing *)
Lemma wp_resize_mv A rows cols m (Q : mat -> mem K -> Prop) : mown A = true -> mblk A < next m -> mwf A -> malloc m A ->
  (forall B m', mrows B = rows -> mcols B = cols -> mown B = true -> mwf B -> malloc m' B -> moves m (fun b => fst b = mblk A) (fun b => fst b = mblk B) m' -> Q B m') ->
  wp TT TT (resize_amatrix A rows cols) m Q.
Proof.
  intros Ho Hb Hw Hal HQ. unfold resize_amatrix. apply wp_bind, wp_assert; [exact Ho|].
  destruct ((rows =? mrows A) && (cols =? mcols A)) eqn:E.
  - apply andb_true_iff in E as [E1%Nat.eqb_eq E2%Nat.eqb_eq]. cbn [wp]. apply HQ; auto. apply moves_refl. intros b ->. exact Hb.
  - cbn [bind pfree palloc wp]. split; [exact Hb|]. split; [intros; exact I|]. apply HQ; auto; try reflexivity.
    + apply mwf_fresh.
    + apply malloc_fresh.
    + split; [cbn; lia|]. split; [intros b ->; right; cbn; lia|]. split; [intros b ->; cbn; lia|]. split.
      * intros b Hl Hn. rewrite get_alloc_old by (cbn; lia). rewrite get_dealloc. destruct (Nat.eqb_spec (fst b) (mblk A)); [contradiction|reflexivity].
      * cbn [mblk]. intros b Hf Hn. rewrite get_alloc_old by exact Hn. rewrite get_dealloc. destruct (Nat.eqb_spec (fst b) (mblk A)) as [|N]; [reflexivity|]. destruct Hf as [Hf|Hf]; [contradiction|]. apply get_fresh, Hf.
Qed.
Lemma wp_setrank0 r m (Q : rkm -> mem K -> Prop) : rkown m r ->
  (forall r' m', mrows (rk_A r') = mrows (rk_A r) -> mrows (rk_B r') = mrows (rk_B r) -> rk_k r' = 0 -> next m <= next m' -> replaced m r m' r' -> Q r' m') ->
  wp TT TT (setrank_rkmatrix r 0) m Q.
Proof.
  intros (OA & OB & Nb & BA & BB & WA & WB & CA & CB & AA & AB) HQ. unfold setrank_rkmatrix.
  apply wp_bind. apply wp_resize_mv; auto. intros A m1 A1 A2 A3 A4 A5 A6.
  assert (AB1 : malloc m1 (rk_B r)).
  { intros i j Hi Hj. rewrite (moves_get _ _ _ _ _ A6); [apply AB; assumption|apply AB; assumption|]. cbn. intros E. apply Nb. symmetry. exact E. }
  assert (N1 : next m <= next m1) by apply A6. assert (HA1 : mblk A < next m1) by (apply (moves_lt _ _ _ _ (mblk A, 0) A6); reflexivity).
  assert (HAB : mblk A <> mblk (rk_B r)). { destruct A6 as (_ & X & _). destruct (X (mblk A, 0) eq_refl) as [E|E]; cbn in E; lia. }
  apply wp_bind. apply wp_resize_mv; auto; [lia|]. intros B m2 B1 B2 B3 B4 B5 B6. cbn [wp].
  assert (N2 : next m1 <= next m2) by apply B6. assert (HB1 : mblk B < next m2) by (apply (moves_lt _ _ _ _ (mblk B, 0) B6); reflexivity).
  assert (HAB2 : mblk A <> mblk B). { destruct B6 as (_ & X & _). destruct (X (mblk B, 0) eq_refl) as [E|E]; cbn in E; lia. }
  assert (M1 : moves m (rkblk r) (fun b => fst b = mblk A \/ fst b = mblk (rk_B r)) m1).
  { eapply moves_ext; [| |eapply (moves_frame _ _ _ (fun b => fst b = mblk (rk_B r))); [exact A6|]]; [intros b; unfold rkblk; tauto|intros b; tauto|intros b ->; exact BB]. }
  assert (M2 : moves m (rkblk r) (fun b => fst b = mblk A \/ fst b = mblk B) m2).
  { eapply moves_trans; [exact M1|]. eapply moves_ext; [| |eapply (moves_frame _ _ _ (fun b => fst b = mblk A)); [exact B6|]]; [intros b; tauto|intros b; tauto|intros b ->; exact HA1]. }
  apply HQ; cbn; auto; [apply M2|]. split; [|split; [|split]].
  - unfold rkown. cbn. repeat split; auto; try lia. intros i j Hi Hj. rewrite (moves_get _ _ _ _ _ B6); [apply A5; assumption|apply A5; assumption|]. cbn. lia.
  - intros b Hb. apply (proj1 (proj2 M2)). exact Hb.
  - apply M2.
  - intros b Hb Hn. apply M2; [exact Hb|]. exact Hn.
Qed.

Lemma wood_hpost m rc cc l l' rs cs ds hs ws m' : 0 < rs -> 0 < cs -> length l = rs * cs -> nsum rs hs = csz rc -> nsum cs ws = csz cc ->
  (forall i j s, i < rs -> j < cs -> nth_error l (i + j * rs) = Some s -> hrows s = hs i /\ hcols s = ws j) ->
  wood m l l' (fun _ => Some (fun _ _ => f0)) m' -> hpost m (HM rc cc None None (Some l) rs cs ds) (fun _ _ => f0) (HM rc cc None None (Some l') rs cs ds) m'.
Proof.
  intros R0 C0 HL E1 E2 HS [A1 A2 A3 A4]. eapply (forest_end m rc cc l l' rs cs ds hs ws (fun _ _ => f0)); try assumption. constructor; assumption.
Qed.
Lemma wp_clear : forall h m (Q : hmx -> mem K -> Prop), hroom m h -> hmut m h -> (forall h' m', hpost m h (fun _ _ => f0) h' m' -> Q h' m') -> wp TT TT (clear_hmatrix h) m Q.
Proof.
  induction h as [h IH] using hsize_ind. intros m Q HR HU HQ.
  destruct HR as [rc cc r ds H1 H2|rc cc f ds H1 H2 H3|rc cc l rs cs ds hs ws P1 P2 P3 P4 P5 P6 P7]; unfold clear_hmatrix; cbn [each_leaf hm_r hm_f have_f].
  - inversion_clear HU as [? ? ? ? U1 U2 U3| |]. apply wp_bind. apply wp_setrank0; [exact U3|]. intros r' m' E1 E2 E3 HN HP. cbn [wp set_r]. apply HQ.
    apply hpost_rk; try assumption; try congruence. apply rk_zero; [apply HP|exact E3].
  - inversion_clear HU as [|? ? ? ? U1 U2 U3|]. cbn [bind]. apply wp_bind. apply wp_clear_amatrix; [exact U3|intros i j Hi Hj; apply H3; assumption|intros ? _; exact I|]. intros m' HV HK. cbn [wp]. apply HQ.
    split; [constructor; assumption|]. split; [constructor; assumption|]. split; [constructor|].
    eapply (moves_ext _ (inm f) (inm f)); [intros b; symmetry; apply hfp_full|intros b; symmetry; apply hfp_full|]. eapply moves_keeps; [exact HK|auto|].
    intros b (i & j & Hi & Hj & ->). apply alloc_lt. apply H3; assumption.
  - inversion_clear HU as [| |? ? ? ? ? ? U1 U2].
    apply wp_bind. eapply (wp_sonloop (fun k l' m' => length l' = k /\ wood m l (l' ++ skipn k l) (fun n => if n <? k then Some (fun _ _ => f0) else None) m')).
    + split; [reflexivity|]. cbn [app skipn]. apply wood_start; [|exact U2]. intros k s Hs. cbn. split; [apply P7|apply U1]; eapply nth_error_In; exact Hs.
    + intros k l' m' Hk (HL' & HW). destruct (nth_ex l k) as (s & Hs); [rewrite P3; lia|]. apply wp_bind. rewrite (sget_map _ _ _ _ Hs). cbn [wp].
      assert (Hs' : nth_error (l' ++ skipn k l) k = Some s). { rewrite nth_error_app2 by lia. rewrite HL', Nat.sub_diag, nth_error_skipn, Nat.add_0_r. exact Hs. }
      destruct (wood_get _ _ _ _ _ _ _ HW Hs') as (s0 & H0 & _ & B1 & B2). rewrite Nat.ltb_irrefl in B1. cbn [hst] in B1.
      apply wp_bind. apply (IH l s eq_refl (nth_error_In _ _ Hs) m'); [exact B1|exact B2|]. intros t m2 HP. cbn [wp]. split; [rewrite app_length, HL'; cbn; lia|].
      assert (HP' : wpost m' s (Some (fun _ _ => f0)) t m2) by exact HP.
      pose proof (wood_put m l _ _ (fun n => if n <? S k then Some (fun _ _ => f0) else None) _ _ _ _ _ _ HW Hs' HP') as HW2.
      assert (EL : lupd (l' ++ skipn k l) k t = (l' ++ [t]) ++ skipn (S k) l).
      { apply nth_error_ext. intros n. rewrite lupd_nth. assert (Hkl : (k <? length (l' ++ skipn k l)) = true) by (apply Nat.ltb_lt; rewrite app_length, skipn_length, P3; lia).
        rewrite <- app_assoc. destruct (Nat.lt_trichotomy n k) as [Hn|[->|Hn]].
        - destruct (Nat.eqb_spec n k); [lia|]. rewrite !nth_error_app1 by lia. reflexivity.
        - rewrite Nat.eqb_refl, Hkl. cbn [andb]. rewrite nth_error_app2 by lia. rewrite HL', Nat.sub_diag. reflexivity.
        - destruct (Nat.eqb_spec n k); [lia|]. cbn [andb]. rewrite !nth_error_app2 by lia. rewrite HL'. replace (n - k) with (S (n - k - 1)) by lia. cbn [app]. change (nth_error (t :: skipn (S k) l) (S (n - k - 1))) with (nth_error (skipn (S k) l) (n - k - 1)). rewrite !nth_error_skipn. f_equal. lia. }
      rewrite Nat.add_1_r. rewrite <- EL. apply HW2. intros n. destruct (Nat.ltb_spec n (S k)); destruct (Nat.eqb_spec n k); destruct (Nat.ltb_spec n k); try lia; reflexivity.
    + intros l' m' (HL' & HW). cbn [wp]. apply HQ. rewrite skipn_all2, app_nil_r in HW by lia. eapply (wood_hpost m rc cc l l' rs cs ds hs ws); try assumption.
      destruct HW as [A1 A2 A3 A4]. constructor; try assumption. intros k s s' Hs Hs'. specialize (A2 k s s' Hs Hs'). cbv beta in A2. replace (k <? rs * cs) with true in A2; [exact A2|]. symmetry. apply Nat.ltb_lt. rewrite <- P3. apply nth_error_Some. congruence.
Qed.
End Wood.
