(** * Operations that change H-matrices: storage *)
From Coq Require Import Arith Lia List Bool.
From Verif Require Import Fld Ord Prog Arr View Loop Line Spec Cluster Block Avector Amatrix AvectorP AmatrixP Rkmatrix RkSpec RkP AmatrixP2 CbP9 OrthoP Hmatrix HmSpec HmP HtSpec HaddSpec.
Import ListNotations.

Section P.
Context {K : fops} {G : ofops}.
Local Notation hmx := (hmatrix G).
Implicit Types (m : mem K) (F H : addr -> Prop) (h s t : hmx) (l : list hmx) (D : nat -> nat -> K).

(** ** Movement of storage *)
Lemma moves_refl m F : (forall a, F a -> fst a < next m) -> moves m F F m.
Proof.
  intros HF. split; [lia|]. split; [auto|]. split; [auto|]. split; [reflexivity|]. intros a [Ha|Ha] Hn; [contradiction|]. apply get_fresh, Ha.
Qed.
Lemma moves_trans m F F' F'' m1 m2 : moves m F F' m1 -> moves m1 F' F'' m2 -> moves m F F'' m2.
Proof.
  intros (A1 & A2 & A3 & A4 & A5) (B1 & B2 & B3 & B4 & B5). split; [lia|]. split; [|split; [exact B3|split]].
  - intros a Ha. destruct (B2 a Ha) as [H1|H1]; [apply A2, H1|right; lia].
  - intros a Ha Hn. rewrite B4; [apply A4; assumption|lia|]. intros HF. destruct (A2 a HF); [contradiction|lia].
  - intros a Ha Hn. assert (HC : get m2 a <> Free -> False).
    { intros Hx. assert (N1 : ~ F' a) by (intros H1; apply Hx, B5; auto). pose proof (A5 a Ha N1) as E.
      destruct (Nat.lt_ge_cases (fst a) (next m1)) as [Hl|Hl].
      - apply Hx. rewrite B4 by assumption. exact E.
      - apply Hx, B5; auto. }
    destruct (get m2 a); [reflexivity|exfalso; apply HC; discriminate|exfalso; apply HC; discriminate].
Qed.
Lemma moves_frame m F F' H m' : moves m F F' m' -> (forall a, H a -> fst a < next m) -> moves m (fun a => F a \/ H a) (fun a => F' a \/ H a) m'.
Proof.
  intros (A1 & A2 & A3 & A4 & A5) HH. split; [exact A1|]. split; [|split; [|split]].
  - intros a [Ha|Ha]; [destruct (A2 a Ha); auto|auto].
  - intros a [Ha|Ha]; [auto|specialize (HH a Ha); lia].
  - intros a Ha Hn. apply A4; auto.
  - intros a Ha Hn. destruct Ha as [[Ha|Ha]|Ha]; [apply A5; auto|exfalso; auto|apply A5; auto].
Qed.
Lemma moves_ext m F F' H H' m' : (forall a, F a <-> H a) -> (forall a, F' a <-> H' a) -> moves m F F' m' -> moves m H H' m'.
Proof.
  intros E E' (A1 & A2 & A3 & A4 & A5). split; [exact A1|]. split; [|split; [|split]].
  - intros a Ha. apply E' in Ha. destruct (A2 a Ha); [left; apply E; assumption|auto].
  - intros a Ha. apply A3, E', Ha.
  - intros a Ha Hn. apply A4; [exact Ha|]. intros X. apply Hn, E, X.
  - intros a Ha Hn. apply A5; [destruct Ha as [Ha|Ha]; [left; apply E, Ha|auto]|]. intros X. apply Hn, E', X.
Qed.
Lemma moves_keeps m F W m' : keeps W m m' -> (forall a, W a -> F a) -> (forall a, F a -> fst a < next m) -> moves m F F m'.
Proof.
  intros [N HK] HW HF. split; [exact N|]. split; [auto|]. split; [intros a Ha; specialize (HF a Ha); lia|]. split.
  - intros a _ Hn. apply HK. auto.
  - intros a [Ha|Ha] Hn; [contradiction|]. rewrite HK by auto. apply get_fresh, Ha.
Qed.
(** Storage that is not touched *)
Lemma moves_get m F F' m' a : moves m F F' m' -> get m a <> Free -> ~ F a -> get m' a = get m a.
Proof.
  intros (_ & _ & _ & A4 & _) Hg Hn. apply A4; [|exact Hn]. destruct (Nat.lt_ge_cases (fst a) (next m)); [assumption|]. exfalso. apply Hg, get_fresh. assumption.
Qed.
Lemma moves_disj m F F' H m' : moves m F F' m' -> (forall a, H a -> fst a < next m) -> disj H F -> disj H F'.
Proof. intros (_ & A2 & _) HH Hd a Ha Hf. destruct (A2 a Hf) as [X|X]; [exact (Hd a Ha X)|specialize (HH a Ha); lia]. Qed.
Lemma moves_of_keeps m F F' m' : moves m F F' m' -> keeps (fun a => F a \/ next m <= fst a) m m'.
Proof. intros (A1 & _ & _ & A4 & _). split; [exact A1|]. intros a Ha. apply A4; [|tauto]. destruct (Nat.lt_ge_cases (fst a) (next m)); [assumption|]. exfalso. auto. Qed.

(** ** Programs do not release block numbers *)
Lemma wp_next_gen {A} (p : prog K A) : forall (R W : addr -> Prop) m n (Q : A -> mem K -> Prop), n <= next m ->
  wp R W p m (fun x m' => n <= next m' -> Q x m') -> wp R W p m Q.
Proof.
  induction p as [a|e|p k IH|p v k IH|n0 k IH|b k IH]; intros R W m n Q Hn; cbn [wp].
  - intros H. apply H, Hn.
  - auto.
  - intros (H1 & v & H2 & H3). split; [exact H1|]. exists v. split; [exact H2|]. eapply IH; eassumption.
  - intros (H1 & H2 & H3). split; [exact H1|]. split; [exact H2|]. eapply IH; [|exact H3]. cbn. exact Hn.
  - intros H1. eapply IH; [|exact H1]. cbn. lia.
  - intros (H1 & H2 & H3). split; [exact H1|]. split; [exact H2|]. eapply IH; [|exact H3]. cbn. exact Hn.
Qed.
Lemma wp_next {A} (p : prog K A) (R W : addr -> Prop) m (Q : A -> mem K -> Prop) : wp R W p m (fun x m' => next m <= next m' -> Q x m') -> wp R W p m Q.
Proof. apply wp_next_gen. lia. Qed.

(** ** Storage of H-matrices *)
Lemma inm_alloc m A f a : mval m A f -> inm A a -> get m a <> Free.
Proof. intros HV (i & j & Hi & Hj & ->). rewrite (HV i j Hi Hj). intros X; inversion X. Qed.
Lemma alloc_lt m a : get m a <> Free -> fst a < next m.
Proof. intros Hg. destruct (Nat.lt_ge_cases (fst a) (next m)); [assumption|]. exfalso. apply Hg, get_fresh. assumption. Qed.
Lemma inrk_alloc m r D a : rkrep m r D -> inrk r a -> get m a <> Free.
Proof. intros (A & B & HA & HB & _) [Ha|Ha]; [exact (inm_alloc _ _ _ _ HA Ha)|exact (inm_alloc _ _ _ _ HB Ha)]. Qed.
Lemma inh_alloc m h D a : hrep m h D -> inh h a -> get m a <> Free.
Proof.
  intros HR. revert a. induction HR as [rc cc r ds D H1 H2 H3|rc cc f ds D H1 H2 H3|rc cc l rsons csons ds hs ws D P1 P2 P3 P4 P5 P6 P7 IH]; intros a Ha.
  - inversion Ha as [? r0 ? E Hin|? f0 ? E Hin|? l0 s ? E Hs Hin]; cbn in E; try discriminate. injection E as <-. eapply inrk_alloc; eassumption.
  - inversion Ha as [? r0 ? E Hin|? f0 ? E Hin|? l0 s ? E Hs Hin]; cbn in E; try discriminate. injection E as <-. eapply inm_alloc; eassumption.
  - inversion Ha as [? r0 ? Hl Hin|? f0 ? Hl Hin|? l0 s ? Hl Hs Hin]; cbn in Hl; try discriminate. injection Hl as <-. apply In_nth_error in Hs as (k & Hk).
    assert (Hlt : k < rsons * csons) by (rewrite <- P3; apply nth_error_Some; congruence).
    eapply (IH (k mod rsons) (k / rsons)); [apply Nat.mod_upper_bound; lia|apply Nat.div_lt_upper_bound; lia| |exact Hin].
    replace (k mod rsons + k / rsons * rsons) with k by (pose proof (Nat.div_mod k rsons ltac:(lia)); lia). exact Hk.
Qed.
Lemma inh_hfp h a : inh h a -> hfp h a.
Proof.
  induction 1 as [h r a Hr Ha|h f a Hf Ha|h l s a Hl Hs Ha IH]; [eapply hfp_r; [exact Hr|]|eapply hfp_f; eassumption|eapply hfp_son; eassumption].
  destruct Ha as [Ha|Ha]; apply inm_blk in Ha; [left|right]; exact Ha.
Qed.
Lemma hfp_rk rc cc r ds a : hfp (HM rc cc (Some r) None None 0 0 ds : hmx) a <-> rkblk r a.
Proof. split; [intros Ha; inversion Ha; cbn in *; congruence|intros Ha; eapply hfp_r; [reflexivity|exact Ha]]. Qed.
Lemma hfp_full rc cc f ds a : hfp (HM rc cc None (Some f) None 0 0 ds : hmx) a <-> inm f a.
Proof. split; [intros Ha; inversion Ha; cbn in *; congruence|intros Ha; eapply hfp_f; [reflexivity|exact Ha]]. Qed.
Definition fpl l (a : addr) : Prop := exists k s, nth_error l k = Some s /\ hfp s a.
Lemma hfp_super rc cc l rs cs ds a : hfp (HM rc cc None None (Some l) rs cs ds) a <-> fpl l a.
Proof.
  split.
  - intros Ha. inversion Ha as [? r0 ? Hl Hin|? f0 ? Hl Hin|? l0 s ? Hl Hs Hin]; cbn in Hl; try discriminate. injection Hl as <-. apply In_nth_error in Hs as (k & Hk). exists k, s. auto.
  - intros (k & s & Hk & Ha). eapply hfp_son; [reflexivity|eapply nth_error_In, Hk|exact Ha].
Qed.
Lemma hfp_lt m h D a : hrep m h D -> hmut m h -> hfp h a -> fst a < next m.
Proof.
  intros HR. revert a. induction HR as [rc cc r ds D H1 H2 H3|rc cc f ds D H1 H2 H3|rc cc l rsons csons ds hs ws D P1 P2 P3 P4 P5 P6 P7 IH]; intros a HM Ha.
  - apply hfp_rk in Ha. inversion HM as [? ? ? ? _ _ (_ & _ & _ & B1 & B2 & _)| |]; subst. destruct Ha as [E|E]; rewrite E; assumption.
  - apply hfp_full in Ha. apply alloc_lt. eapply inm_alloc; eassumption.
  - apply hfp_super in Ha as (k & s & Hk & Ha). inversion HM as [| |? ? ? ? ? ? Hsons _]; subst.
    assert (Hlt : k < rsons * csons) by (rewrite <- P3; apply nth_error_Some; congruence).
    eapply (IH (k mod rsons) (k / rsons) s); [apply Nat.mod_upper_bound; lia|apply Nat.div_lt_upper_bound; lia| |apply Hsons; eapply nth_error_In, Hk|exact Ha].
    replace (k mod rsons + k / rsons * rsons) with k by (pose proof (Nat.div_mod k rsons ltac:(lia)); lia). exact Hk.
Qed.

(** ** What is left alone *)
Lemma hrep_moves m F F' m' h D : moves m F F' m' -> hrep m h D -> disj (inh h) F -> hrep m' h D.
Proof.
  intros HM HR Hd. eapply hrep_keeps; [exact HR|eapply moves_of_keeps; exact HM|]. intros a Ha [Hf|Hf]; [exact (Hd a Ha Hf)|].
  pose proof (alloc_lt _ _ (inh_alloc _ _ _ _ HR Ha)). lia.
Qed.
Lemma rkrep_moves m F F' m' r D : moves m F F' m' -> rkrep m r D -> disj (inrk r) F -> rkrep m' r D.
Proof.
  intros HM HR Hd. eapply rkrep_keeps; [exact HR|eapply moves_of_keeps; exact HM|]. intros a Ha [Hf|Hf]; [exact (Hd a Ha Hf)|].
  pose proof (alloc_lt _ _ (inrk_alloc _ _ _ _ HR Ha)). lia.
Qed.
Lemma mval_moves m F F' m' A f : moves m F F' m' -> mval m A f -> disj (inm A) F -> mval m' A f.
Proof.
  intros HM HR Hd. eapply mval_keeps; [exact HR|eapply moves_of_keeps; exact HM|]. intros a Ha [Hf|Hf]; [exact (Hd a Ha Hf)|].
  pose proof (alloc_lt _ _ (inm_alloc _ _ _ _ HR Ha)). lia.
Qed.
Lemma rkown_moves m F F' m' r : moves m F F' m' -> rkown m r -> disj (rkblk r) F -> rkown m' r.
Proof.
  intros (N & _ & _ & HK & _) (A1 & A2 & A3 & A4 & A5 & A6 & A7 & A8 & A9 & A10 & A11) Hd. unfold rkown. repeat split; try assumption; try lia.
  - intros i j Hi Hj. rewrite HK; [apply A10; assumption|cbn; assumption|]. intros X. eapply (Hd _); [|exact X]. left. reflexivity.
  - intros i j Hi Hj. rewrite HK; [apply A11; assumption|cbn; assumption|]. intros X. eapply (Hd _); [|exact X]. right. reflexivity.
Qed.
Lemma hmut_moves m F F' m' h : moves m F F' m' -> hmut m h -> disj (hfp h) F -> hmut m' h.
Proof.
  intros HM HU. induction HU as [rc cc r ds H1 H2 H3|rc cc f ds H1 H2 H3|rc cc l rs cs ds H1 IH H2]; intros Hd.
  - constructor; auto. eapply rkown_moves; [exact HM|exact H3|]. intros a Ha. apply Hd, hfp_rk, Ha.
  - constructor; auto.
  - constructor; auto. intros s Hs. apply IH; [exact Hs|]. intros a Ha. apply Hd. eapply hfp_son; [reflexivity|exact Hs|exact Ha].
Qed.

(** ** Changed H-matrices *)
Lemma hlike_cl h h' : hlike h h' -> hm_rc h' = hm_rc h /\ hm_cc h' = hm_cc h.
Proof. destruct 1; auto. Qed.
Lemma hlike_size h h' : hlike h h' -> hrows h' = hrows h /\ hcols h' = hcols h.
Proof. intros HL. apply hlike_cl in HL as [E1 E2]. unfold hrows, hcols. rewrite E1, E2. auto. Qed.
Lemma hlike_refl m h : hmut m h -> hlike h h.
Proof.
  induction 1 as [rc cc r ds H1 H2 H3|rc cc f ds H1 H2 H3|rc cc l rs cs ds H1 IH H2]; constructor.
  clear H1 H2. induction l as [|s l IHl]; constructor; [apply IH; left; reflexivity|apply IHl; intros t Ht; apply IH; right; exact Ht].
Qed.
Lemma Forall2_trans {A B C} (P : A -> B -> Prop) (Q : B -> C -> Prop) (R : A -> C -> Prop) la lb lc :
  Forall2 P la lb -> Forall2 Q lb lc -> (forall a b c, In a la -> P a b -> Q b c -> R a c) -> Forall2 R la lc.
Proof.
  intros H1. revert lc. induction H1 as [|a b la lb Hab H1 IH]; intros lc H2 HR; inversion H2; subst; constructor.
  - eapply HR; [left; reflexivity|eassumption|eassumption].
  - apply IH; [assumption|]. intros a0 b0 c0 Hin. apply HR. right. exact Hin.
Qed.
Lemma hsize_ind (P : hmx -> Prop) : (forall h, (forall l s, hm_son h = Some l -> In s l -> P s) -> P h) -> forall h, P h.
Proof.
  intros HP. fix IH 1. intros [rc cc r f [l|] rs cs ds]; apply HP; cbn; [|discriminate]. intros l0 s E. injection E as <-.
  induction l as [|t l IHl]; [intros []|]. intros [<-|Hs]; [apply IH|apply IHl, Hs].
Qed.
Lemma hlike_trans h : forall h1 h2, hlike h h1 -> hlike h1 h2 -> hlike h h2.
Proof.
  induction h as [h IH] using hsize_ind. intros h1 h2 H1 H2.
  destruct H1 as [rc cc r r' ds|rc cc f ds|rc cc l l' rs cs ds HF]; inversion H2; subst; constructor.
  eapply Forall2_trans; [exact HF|eassumption|]. intros a b c Hin. apply (IH l a eq_refl Hin).
Qed.
Lemma hpost_ext m h D E h' m' : hpost m h D h' m' -> (forall i j, i < hrows h -> j < hcols h -> E i j = D i j) -> hpost m h E h' m'.
Proof.
  intros (H1 & H2 & H3 & H4) HE. split; [|auto]. eapply hrep_ext; [exact H1|]. destruct (hlike_size _ _ H3) as [-> ->]. exact HE.
Qed.
Lemma hpost_refl m h D : hrep m h D -> hmut m h -> hpost m h D h m.
Proof. intros HR HM. split; [exact HR|]. split; [exact HM|]. split; [eapply hlike_refl; exact HM|]. apply moves_refl. intros a Ha. eapply hfp_lt; eassumption. Qed.
Lemma hpost_trans m h D h1 m1 E h2 m2 : hpost m h D h1 m1 -> hpost m1 h1 E h2 m2 -> hpost m h E h2 m2.
Proof.
  intros (_ & _ & L1 & M1) (R2 & U2 & L2 & M2). split; [exact R2|]. split; [exact U2|]. split; [eapply hlike_trans; eassumption|]. eapply moves_trans; eassumption.
Qed.
Lemma hpost_rk m rc cc r ds r' m' D : 0 < csz rc -> 0 < csz cc -> mrows (rk_A r') = csz rc -> mrows (rk_B r') = csz cc ->
  next m <= next m' -> rkrep m' r' D -> replaced m r m' r' -> hpost m (HM rc cc (Some r) None None 0 0 ds : hmx) D (HM rc cc (Some r') None None 0 0 ds) m'.
Proof.
  intros P1 P2 E1 E2 HN HR (HO & A1 & A2 & A3). split; [constructor; assumption|]. split; [constructor; assumption|]. split; [constructor|].
  eapply (moves_ext _ (rkblk r) (rkblk r')); [intros a; symmetry; apply hfp_rk|intros a; symmetry; apply hfp_rk|]. split; [exact HN|]. split; [exact A1|]. split; [|split; assumption].
  destruct HO as (_ & _ & _ & B1 & B2 & _). intros a [E|E]; rewrite E; assumption.
Qed.
Lemma hpost_full m rc cc f ds m' D E : hrep m (HM rc cc None (Some f) None 0 0 ds : hmx) E -> hmut m (HM rc cc None (Some f) None 0 0 ds : hmx) -> mval m' f D ->
  keeps (inm f) m m' -> hpost m (HM rc cc None (Some f) None 0 0 ds : hmx) D (HM rc cc None (Some f) None 0 0 ds) m'.
Proof.
  intros HR HU HV HK. inversion HU; subst. inversion HR; subst. split; [constructor; assumption|]. split; [constructor; assumption|]. split; [constructor|].
  eapply (moves_ext _ (inm f) (inm f)); [intros a; symmetry; apply hfp_full|intros a; symmetry; apply hfp_full|]. eapply moves_keeps; [exact HK|auto|].
  intros a Ha. apply alloc_lt. eapply inm_alloc; eassumption.
Qed.

(** ** Lists of H-matrices that are changed one after the other *)
Record forest m0 (l0 l : list hmx) (V : nat -> nat -> nat -> K) m : Prop := Forest {
  fo_len : length l = length l0;
  fo_son : forall k s s', nth_error l0 k = Some s -> nth_error l k = Some s' -> hlike s s' /\ hrep m s' (V k) /\ hmut m s';
  fo_dis : forall i k s t, nth_error l i = Some s -> nth_error l k = Some t -> i <> k -> disj (hfp s) (hfp t);
  fo_mov : moves m0 (fpl l0) (fpl l) m }.
Lemma forest_get m0 l0 l V m k s' : forest m0 l0 l V m -> nth_error l k = Some s' -> exists s, nth_error l0 k = Some s /\ hlike s s' /\ hrep m s' (V k) /\ hmut m s'.
Proof.
  intros HF Hk. destruct (nth_error l0 k) as [s|] eqn:E; [exists s; split; [reflexivity|]; eapply fo_son; eassumption|].
  apply nth_error_None in E. rewrite <- (fo_len _ _ _ _ _ HF) in E. apply nth_error_None in E. congruence.
Qed.
Lemma forest_start m l V : (forall k s, nth_error l k = Some s -> hrep m s (V k) /\ hmut m s) ->
  (forall i k s t, nth_error l i = Some s -> nth_error l k = Some t -> i <> k -> disj (hfp s) (hfp t)) -> forest m l l V m.
Proof.
  intros HS HD. constructor; [reflexivity| |exact HD|].
  - intros k s s' H1 H2. rewrite H1 in H2. injection H2 as <-. destruct (HS k s H1) as [A B]. split; [eapply hlike_refl; exact B|auto].
  - apply moves_refl. intros a (k & s & Hk & Ha). destruct (HS k s Hk). eapply hfp_lt; eassumption.
Qed.
Lemma forest_ext m0 l0 l V V' m : forest m0 l0 l V m -> (forall k a b, k < length l -> V' k a b = V k a b) -> forest m0 l0 l V' m.
Proof.
  intros [A1 A2 A3 A4] HV. constructor; try assumption. intros k s s' H1 H2. destruct (A2 k s s' H1 H2) as (B1 & B2 & B3). split; [exact B1|]. split; [|exact B3].
  eapply hrep_ext; [exact B2|]. intros i j _ _. apply HV. apply nth_error_Some. congruence.
Qed.
Lemma forest_step m0 l0 l V m k s E s' m' : forest m0 l0 l V m -> nth_error l k = Some s -> hpost m s E s' m' ->
  forest m0 l0 (lupd l k s') (fun i => if i =? k then E else V i) m'.
Proof.
  intros HF Hk (P1 & P2 & P3 & P4). assert (Hkl : k < length l) by (apply nth_error_Some; congruence).
  assert (Hnth : forall i, nth_error (lupd l k s') i = if i =? k then Some s' else nth_error l i).
  { intros i. rewrite lupd_nth. destruct (Nat.eqb_spec i k) as [E0|E0]; [subst i; rewrite (proj2 (Nat.ltb_lt _ _) Hkl); reflexivity|reflexivity]. }
  constructor.
  - rewrite lupd_length. apply HF.
  - intros i t t' H1 H2. rewrite Hnth in H2. destruct (Nat.eqb_spec i k) as [E0|E0].
    + subst i. injection H2 as <-. destruct (fo_son _ _ _ _ _ HF k t s H1 Hk) as (B1 & _). split; [eapply hlike_trans; eassumption|auto].
    + destruct (fo_son _ _ _ _ _ HF i t t' H1 H2) as (B1 & B2 & B3). split; [exact B1|].
      assert (Hd : disj (hfp t') (hfp s)) by (eapply (fo_dis _ _ _ _ _ HF i k); eassumption).
      split; [eapply hrep_moves; [exact P4|exact B2|]|eapply hmut_moves; [exact P4|exact B3|exact Hd]]. intros a Ha. apply Hd, inh_hfp, Ha.
  - assert (Hx : forall i t, nth_error l i = Some t -> i <> k -> disj (hfp t) (hfp s')).
    { intros i t Ht Hne. destruct (forest_get _ _ _ _ _ _ _ HF Ht) as (t0 & _ & _ & B2 & B3). eapply moves_disj; [exact P4| |eapply (fo_dis _ _ _ _ _ HF i k); eassumption].
      intros a Ha. eapply hfp_lt; eassumption. }
    intros i j t u H1 H2 Hne. rewrite Hnth in H1, H2. destruct (Nat.eqb_spec i k) as [E0|E0]; destruct (Nat.eqb_spec j k) as [E1|E1].
    + congruence.
    + injection H1 as <-. intros a Ha Hb. exact (Hx j u H2 E1 a Hb Ha).
    + injection H2 as <-. exact (Hx i t H1 E0).
    + eapply (fo_dis _ _ _ _ _ HF i j); eassumption.
  - eapply moves_trans; [apply HF|].
    set (rest := fun a => exists i t, i <> k /\ nth_error l i = Some t /\ hfp t a).
    eapply (moves_ext _ (fun a => hfp s a \/ rest a) (fun a => hfp s' a \/ rest a)).
    + intros a. split.
      * intros [Ha|(i & t & Hne & Ht & Ha)]; [exists k, s; auto|exists i, t; auto].
      * intros (i & t & Ht & Ha). destruct (Nat.eq_dec i k) as [->|Hne]; [left; congruence|right; exists i, t; auto].
    + intros a. split.
      * intros [Ha|(i & t & Hne & Ht & Ha)]; [exists k, s'; rewrite Hnth, Nat.eqb_refl; auto|exists i, t]. rewrite Hnth. destruct (Nat.eqb_spec i k); [contradiction|auto].
      * intros (i & t & Ht & Ha). rewrite Hnth in Ht. destruct (Nat.eqb_spec i k) as [E0|E0]; [left; congruence|right; exists i, t; auto].
    + apply moves_frame; [exact P4|]. intros a (i & t & Hne & Ht & Ha). destruct (forest_get _ _ _ _ _ _ _ HF Ht) as (t0 & _ & _ & B2 & B3). eapply hfp_lt; eassumption.
Qed.

(** The part of [D] at position [k] *)
Definition partof rs (hs ws : nat -> nat) D (k a b : nat) : K := D (nsum (k mod rs) hs + a) (nsum (k / rs) ws + b).
Lemma partof_at rs hs ws D i j a b : i < rs -> partof rs hs ws D (i + j * rs) a b = D (nsum i hs + a) (nsum j ws + b).
Proof.
  intros Hi. unfold partof. rewrite Nat.mod_add, Nat.mod_small by lia. rewrite Nat.div_add, Nat.div_small by lia. reflexivity.
Qed.
Lemma forest_sons m rc cc l rs cs ds hs ws D : length l = rs * cs ->
  (forall i j s, i < rs -> j < cs -> nth_error l (i + j * rs) = Some s -> hrep m s (fun p q => D (nsum i hs + p) (nsum j ws + q))) ->
  hmut m (HM rc cc None None (Some l) rs cs ds) -> forest m l l (partof rs hs ws D) m.
Proof.
  intros HL HR HU. inversion HU as [| |? ? ? ? ? ? H1 H2]; subst. apply forest_start; [|exact H2]. intros k s Hk. split; [|apply H1; eapply nth_error_In, Hk].
  assert (Hlt : k < rs * cs) by (rewrite <- HL; apply nth_error_Some; congruence).
  assert (rs <> 0) by (intros ->; cbn in Hlt; lia).
  apply (HR (k mod rs) (k / rs)); [apply Nat.mod_upper_bound; lia|apply Nat.div_lt_upper_bound; lia|].
  replace (k mod rs + k / rs * rs) with k by (pose proof (Nat.div_mod k rs ltac:(lia)); lia). exact Hk.
Qed.
Lemma Forall2_intro {A B} (P : A -> B -> Prop) (la : list A) : forall (lb : list B), length lb = length la ->
  (forall k a b, nth_error la k = Some a -> nth_error lb k = Some b -> P a b) -> Forall2 P la lb.
Proof.
  induction la as [|a la IH]; intros [|b lb] HL HP; try discriminate; constructor.
  - apply (HP 0); reflexivity.
  - apply IH; [injection HL; auto|]. intros k. apply (HP (S k)).
Qed.
Lemma forest_end m rc cc l l' rs cs ds hs ws D m' : 0 < rs -> 0 < cs -> length l = rs * cs -> nsum rs hs = csz rc -> nsum cs ws = csz cc ->
  (forall i j s, i < rs -> j < cs -> nth_error l (i + j * rs) = Some s -> hrows s = hs i /\ hcols s = ws j) ->
  forest m l l' (partof rs hs ws D) m' -> hpost m (HM rc cc None None (Some l) rs cs ds) D (HM rc cc None None (Some l') rs cs ds) m'.
Proof.
  intros R0 C0 HL E1 E2 HS HF. split; [|split; [|split]].
  - econstructor; [exact R0|exact C0|rewrite (fo_len _ _ _ _ _ HF); exact HL|exact E1|exact E2| |].
    + intros i j s Hi Hj Hs. destruct (forest_get _ _ _ _ _ _ _ HF Hs) as (t & Ht & HLk & _). destruct (hlike_size _ _ HLk) as [-> ->]. eapply HS; eassumption.
    + intros i j s Hi Hj Hs. destruct (forest_get _ _ _ _ _ _ _ HF Hs) as (t & Ht & _ & HR & _). eapply hrep_ext; [exact HR|]. intros p q _ _. rewrite partof_at by exact Hi. reflexivity.
  - constructor; [|apply HF]. intros s Hs. apply In_nth_error in Hs as (k & Hk). destruct (forest_get _ _ _ _ _ _ _ HF Hk) as (t & _ & _ & _ & HU). exact HU.
  - constructor. apply Forall2_intro; [apply HF|]. intros k s s' H1 H2. apply (fo_son _ _ _ _ _ HF k s s' H1 H2).
  - eapply moves_ext; [intros a; symmetry; apply hfp_super|intros a; symmetry; apply hfp_super|]. apply HF.
Qed.
End P.
