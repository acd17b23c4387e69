(** * A matrix is added to the lower triangular part of an H-matrix *)
From Coq Require Import Arith Lia List Bool Permutation Ring NArith.
From Verif Require Import Fld Ord Prog Arr View Loop Line Spec FactorSpec FactorP4 Cluster Block BlockP Avector Amatrix AvectorP AmatrixP AmatrixP2 Rkmatrix RkSpec RkP Factor Chol CholSpec Qr QrSpec Lr LrP
  CbP CbmSpec CbmP CopSpec OrthoP SepP SepP2 Htrunc HtSpec HtP HtP2 HtP3 HtP4 Hmatrix HmSpec HmP HmP3 HmP4 HlibSpec Harith HaSpec HaP HaP2 HaP3 HaP4 HaddSpec HmvP Hadd MgP MgP2 MgP3 HaddP HaddP2 HaddP3 HaddP4 HaddP5 HaddP6 Hmul HmulP HmulP2 HmulP3 HmulP4 HmulP5 Hfac HfacSpec HfacP HfacP2 HfacP3 HfacP4 HfacP5 Hchol HcholP.
Import ListNotations.
Local Open Scope nat_scope.

Section P.
Context {K : fops} {G : ofops} (L : field_laws K) (O : qops K) (H : qlaws O) (HZ : exact_zero O).
Context (orth : Prop) (good : nat -> (nat -> K) -> Prop) (chosen : nat -> (nat -> K) -> nat -> Prop) (dom : nat -> nat -> Prop).
Context (svd : mat -> vec -> mat -> mat -> prog K unit) (rank : vec -> prog K nat) (Hsvd : svd_ok orth good dom svd) (Hrank : rank_ok good chosen rank).
Context (Hdom : forall r c, dom r c) (Hless : forall n s k, chosen n s k -> forall l, k <= l < n -> s l = f0).
Notation RL := (fl_ring K L).
Add Ring KringHchol2 : (rl_ring K (fl_ring K L)).
Local Notation hmx := (hmatrix G).
Implicit Types (m : mem K) (h x y z b : hmx) (l : list hmx) (D E F U V W X Y Z : nat -> nat -> K) (rc cc : cptr G).

(** The parts of a subdivided matrix with quadratic diagonal blocks *)
Lemma square_parts m rc l R ds D : let h := HM rc rc None None (Some l) R R ds in hrep m h D -> hstd h -> hpos h -> 0 < R /\ length l = R * R /\ nsum R (fun i => csz (prt rc i)) = csz rc /\
  (forall i k s, i < R -> k < R -> nth_error l (i + k * R) = Some s -> hm_rc s = prt rc i /\ hm_cc s = prt rc k) /\
  (forall s, In s l -> hstd s /\ hpos s) /\
  (forall i j s, i < R -> j < R -> nth_error l (i + j * R) = Some s -> hrep m s (fun p q => D (nsum i (fun i => csz (prt rc i)) + p) (nsum j (fun i => csz (prt rc i)) + q))).
Proof.
  intros h HR HS HP. pose proof HR as HRx. inversion_clear HRx as [| |? ? ? ? ? ? hs ws ? P1 P2 P3 P4 P5 P6 P7].
  destruct (std_parts m rc rc l R R ds hs ws D HS P1 P2 P3 P6 P7) as (_ & _ & HRl & _ & HPt).
  split; [exact P1|]. split; [exact P3|]. split; [rewrite <- P4; apply nsum_ext'; intros i Hi; symmetry; apply HRl, Hi|]. split.
  { intros i k s Hi Hk Hs. destruct (HPt i k s Hi Hk Hs) as (Y1 & Y2 & _). auto. } split.
  { intros s Is. split; [eapply hstd_son; [exact HS|reflexivity|exact Is]|eapply hpos_son; [exact HP|reflexivity|exact Is]]. }
  intros i j s Hi Hj Hs. apply (HPt i j s Hi Hj Hs).
Qed.

Definition low_ok {A} (rep : mem K -> A -> nat -> nat -> (nat -> nat -> K) -> (addr -> Prop) -> Prop) (alpha : K) (go : hmx -> A -> prog K hmx) (s0 : hmx) : Prop := forall b a N m D E (Q : hmx -> mem K -> Prop),
  hlike s0 b -> hrep m b D -> hmut m b -> hstd b -> hpos b -> hdiag b -> rep m a (hrows b) (hcols b) E N -> disj N (hfp b) ->
  (forall E' b' m', hpost m b E' b' m' -> lowerq (hrows b) E' (fun i j => D i j + alpha * E i j)%F -> Q b' m') -> wp TT TT (go b a) m Q.

Lemma sons_len l l' : Forall2 hlike l l' -> length l = length l'.
Proof. induction 1; cbn; congruence. Qed.

(** The recursion, for dense and for low-rank matrices *)
Lemma wp_addlow_sons {A} (rep : mem K -> A -> nat -> nat -> (nat -> nat -> K) -> (addr -> Prop) -> Prop) (alpha : K) (part : nat -> nat -> nat -> nat -> prog K A) (done : A -> prog K unit)
  (gof : hmx -> hmx -> A -> prog K hmx) (go : hmx -> A -> prog K hmx) rc ls l R ds a N m D E (Q : hmx -> mem K -> Prop) : let b := HM rc rc None None (Some l) R R ds in
  Forall2 hlike ls l -> hrep m b D -> hmut m b -> hstd b -> hpos b -> (forall j s, j < R -> nth_error l (j + j * R) = Some s -> hdiag s) -> rep m a (csz rc) (csz rc) E N -> disj N (hfp b) ->
  (forall s, In s ls -> low_ok rep alpha (gof s) s) ->
  (forall s a1 N1 m1 D1 E1 (Q1 : hmx -> mem K -> Prop), hrep m1 s D1 -> hmut m1 s -> rep m1 a1 (hrows s) (hcols s) E1 N1 -> disj N1 (hfp s) -> (forall s' m', hpost m1 s (fun i j => D1 i j + alpha * E1 i j)%F s' m' -> Q1 s' m') -> wp TT TT (go s a1) m1 Q1) ->
  (forall m1 rows roff cols coff (Q1 : A -> mem K -> Prop), rep m1 a (csz rc) (csz rc) E N -> roff + rows <= csz rc -> coff + cols <= csz rc ->
     (forall a1 N1, rep m1 a1 rows cols (fun i j => E (roff + i) (coff + j)) N1 -> (forall c, N1 c -> N c) -> (forall m2, wp TT TT (done a1) m2 (fun _ m3 => m3 = m2)) -> Q1 a1 m1) -> wp TT TT (part rows roff cols coff) m1 Q1) ->
  (forall m1 a1 n1 n2 E1 N1, rep m1 a1 n1 n2 E1 N1 -> forall c, N1 c -> fst c < next m1) ->
  (forall m1 a1 n1 n2 E1 N1 (F F' : addr -> Prop) m2, rep m1 a1 n1 n2 E1 N1 -> moves m1 F F' m2 -> disj N1 F -> rep m2 a1 n1 n2 E1 N1) ->
  (forall E' b' m', hpost m b E' b' m' -> lowerq (csz rc) E' (fun i j => D i j + alpha * E i j)%F -> Q b' m') ->
  wp TT TT (l <- addlowsons part done (Some (map gof ls)) go rc rc R l ;; Ret (set_sons b l)) m Q.
Proof.
  intros b HF HR HU HS HP Hd Ha Hdj Hrec Hgo Hpart Hlt Hmv HQ.
  destruct (square_parts m rc l R ds D HR HS HP) as (R0 & HL0 & ER & Hcl & Hst0 & Hson).
  pose proof (sons_len _ _ HF) as HLs. apply wp_bind.
  eapply (wp_addlowsons R rc m l HL0 Hcl Hst0 R0 ER part done (map gof ls) go D (fun i j => D i j + alpha * E i j)%F).
  - apply (st_start R rc m l HL0 rc ds); [reflexivity|exact Hson|exact HU].
  - rewrite map_length. congruence.
  - intros i j s0 s g m1 F1 Hji Hi Hs0 HLk Hg HM HF1 HR1 HU1 HS1 HP1 C1 C2 B1 B2.
    assert (Hnc : disj N (hfp s)).
    { intros c Hc Hb. destruct (proj1 (proj2 HM) c (HF1 c Hb)) as [Hf|Hn]; [apply (Hdj c Hc), hfp_super, Hf|]. pose proof (Hlt _ _ _ _ _ _ Ha c Hc). lia. }
    assert (Ha1 : rep m1 a (csz rc) (csz rc) E N) by (eapply Hmv; [exact Ha|exact HM|intros c Hc Hf; apply (Hdj c Hc), hfp_super, Hf]).
    unfold addpart. apply wp_bind. eapply Hpart; [exact Ha1|exact B1|exact B2|]. intros a1 N1 Ra1 HN1 Hdone.
    assert (Hd1 : disj N1 (hfp s)) by (intros c Hc; apply Hnc, HN1, Hc).
    assert (Eb : hrows s = csz (prt rc i) /\ hcols s = csz (prt rc j)) by (unfold hrows, hcols; rewrite C1, C2; auto). destruct Eb as [Eb1 Eb2].
    destruct (Nat.eqb_spec i j) as [<-|Nij].
    + destruct (nth_ex ls (i + i * R)) as (s1 & Ns1); [rewrite HLs, HL0; apply pos_lt; lia|].
      rewrite (map_nth_error gof _ _ Ns1) in Hg. injection Hg as <-. apply wp_bind.
      eapply (Hrec s1 (nth_error_In _ _ Ns1) s a1 N1 m1 _ _ _) with (7 := Ra1); try assumption.
      * eapply hlike_trans; [exact (BlockP.Forall2_nth _ _ _ HF _ _ _ Ns1 Hs0)|exact HLk].
      * exact HR1.
      * eapply hdiag_like; [exact (Hd i s0 Hi Hs0)|exact HLk].
      * intros E' s' m2 HPs HE. apply wp_bind. eapply wp_conseq; [apply Hdone|]. cbv beta. intros _ m3 ->. cbn [wp]. exists E'. split; [exact HPs|]. intros p c Hp Hc [Hl|[_ Hl]]; [lia|]. apply HE; [exact Hl|lia].
    + apply wp_bind. eapply (Hgo s a1 N1 m1 _ _ _) with (3 := Ra1); try assumption; [exact HR1|].
      intros s' m2 HPs. apply wp_bind. eapply wp_conseq; [apply Hdone|]. cbv beta. intros _ m3 ->. cbn [wp]. eexists. split; [exact HPs|]. intros p c _ _ _. reflexivity.
  - intros tg l' m' HS' HT. cbn [wp b set_sons]. eapply HQ; [eapply st_hpost; [exact HL0|exact Hcl|exact R0|exact ER|exact HS']|]. eapply low_asm; eassumption.
Qed.

Definition amrep m (a : mat) (n1 n2 : nat) E (N : addr -> Prop) : Prop := mval m a E /\ mrows a = n1 /\ mcols a = n2 /\ forall c, N c <-> inm a c.
Definition rkrep' m (a : rkm) (n1 n2 : nat) E (N : addr -> Prop) : Prop := rkrep m a E /\ mrows (rk_A a) = n1 /\ mrows (rk_B a) = n2 /\ forall c, N c <-> inrk a c.

Lemma wp_add_lower_am alpha s0 : fconj alpha = alpha -> low_ok amrep alpha (add_lower_amatrix_h O svd rank alpha false s0) s0.
Proof.
  intros Hal. induction s0 as [s0 IH] using hsize_ind. intros b a N m D E Q HLk HR HU HS HP Hd (HA & A1 & A2 & HN) Hdj HQ.
  destruct Hd as [rc f ds|rc l R ds Hd].
  - inversion HLk; subst. cbn [add_lower_amatrix_h hm_rc hm_cc hm_f]. rewrite cp_eqb_refl. cbn [passert bind].
    apply wp_bind. eapply (wp_add_full alpha false a E rc rc f ds m D); [exact HR|exact HU|exact HA|exact A1|exact A2|intros c Hc; apply Hdj, HN, Hc|].
    intros m' HPo. cbn [wp]. eapply HQ; [exact HPo|]. intros p q _ _. reflexivity.
  - inversion HLk as [| |? ? l0 l' ? ? ? HFl]; subst. cbn [add_lower_amatrix_h hm_rc hm_cc hm_f hm_son hm_rsons hm_csons]. rewrite cp_eqb_refl, Nat.eqb_refl. cbn [passert bind].
    eapply (wp_addlow_sons amrep alpha _ _ (add_lower_amatrix_h O svd rank alpha false) _ rc l0 l R ds a N m D E); try assumption.
    + split; [exact HA|]. auto.
    + intros s Is. apply (IH l0 s eq_refl Is).
    + intros s a1 N1 m1 D1 E1 Q1 R1 U1 (V1 & V2 & V3 & V4) Hd1 HQ1. eapply (wp_add_am_h L O H HZ orth good chosen dom svd rank Hsvd Hrank Hdom Hless); [exact Hal|exact R1|exact U1|exact V1|exact V2|exact V3|intros c Hc; apply Hd1, V4, Hc|exact HQ1].
    + intros m1 rows roff cols coff Q1 (V1 & V2 & V3 & V4) B1 B2 HQ1. apply wp_init_sub_amatrix; [lia|lia|]. apply (HQ1 _ (inm (subm a roff rows coff cols))).
      * split; [apply mval_subm; [exact V1|lia|lia]|]. split; [reflexivity|]. split; [reflexivity|]. intros c. tauto.
      * intros c Hc. apply V4. eapply inm_subm; [| |exact Hc]; lia.
      * intros m2. reflexivity.
    + intros m1 a1 n1 n2 E1 N1 (V1 & V2 & V3 & V4) c Hc. exact (alloc_lt _ _ (inm_alloc _ _ _ _ V1 (proj1 (V4 c) Hc))).
    + intros m1 a1 n1 n2 E1 N1 F F' m2 (V1 & V2 & V3 & V4) HM Hd1. split; [eapply mval_moves; [exact HM|exact V1|intros c Hc; apply Hd1, V4, Hc]|auto].
Qed.
Lemma wp_add_lower_rk alpha s0 : low_ok rkrep' alpha (add_lower_rkmatrix_h O svd rank alpha s0) s0.
Proof.
  induction s0 as [s0 IH] using hsize_ind. intros b a N m D E Q HLk HR HU HS HP Hd (HA & A1 & A2 & HN) Hdj HQ.
  assert (H0 : rk_k a = 0 -> Q b m).
  { intros E0. eapply HQ; [apply hpost_refl; [exact HR|exact HU]|]. intros i j Hij Hi. cbv beta. destruct HA as (X & Y & _ & _ & _ & _ & HE). destruct (hdiag_rc _ Hd) as (Erc & _). rewrite HE by (unfold hrows, hcols in *; rewrite ?A1, ?A2; rewrite <- ?Erc; lia). rewrite E0. unfold lowrank. cbn [sum]. ring. }
  destruct Hd as [rc f ds|rc l R ds Hd].
  - inversion HLk; subst. cbn [add_lower_rkmatrix_h hm_rc hm_cc hm_f]. rewrite cp_eqb_refl. cbn [passert bind].
    destruct (Nat.eqb_spec (rk_k a) 0) as [E0|E0]; [cbn [wp]; apply H0, E0|]. clear H0.
    unfold add_rkmatrix_amatrix. rewrite (proj2 (Nat.eqb_neq _ _) E0). pose proof HR as HRx. inversion_clear HRx as [|? ? ? ? ? V1 V2 V3|]. unfold hrows, hcols in A1, A2. cbn [hm_rc hm_cc] in A1, A2.
    apply wp_bind. apply wp_bind, wp_assert; [apply Nat.eqb_eq; lia|]. apply wp_bind, wp_assert; [apply Nat.eqb_eq; lia|].
    eapply (wp_addlow_full L alpha a rc rc f ds m D E); [exact HR|exact HU|exact HA|exact A1|exact A2|intros c Hc; apply Hdj, HN, Hc|].
    intros m' HPo. cbn [wp]. eapply HQ; [exact HPo|]. intros p q _ _. reflexivity.
  - inversion HLk as [| |? ? l0 l' ? ? ? HFl]; subst. cbn [add_lower_rkmatrix_h hm_rc hm_cc hm_f hm_son hm_rsons hm_csons]. rewrite cp_eqb_refl, Nat.eqb_refl. cbn [passert bind].
    destruct (Nat.eqb_spec (rk_k a) 0) as [E0|E0]; [cbn [wp]; apply H0, E0|]. clear H0.
    eapply (wp_addlow_sons rkrep' alpha _ _ (add_lower_rkmatrix_h O svd rank alpha) _ rc l0 l R ds a N m D E); try assumption.
    + split; [exact HA|]. auto.
    + intros s Is. apply (IH l0 s eq_refl Is).
    + intros s a1 N1 m1 D1 E1 Q1 R1 U1 (V1 & V2 & V3 & V4) Hd1 HQ1. eapply (wp_add_rk_h L O H HZ orth good chosen dom svd rank Hsvd Hrank Hdom Hless); [exact R1|exact U1|exact V1|exact V2|exact V3|intros c Hc; apply Hd1, V4, Hc|exact HQ1].
    + intros m1 rows roff cols coff Q1 (V1 & V2 & V3 & V4) B1 B2 HQ1. pose proof V1 as (X & Y & HX & HY & CA & CB & HE). unfold init_sub_rkmatrix. cbv zeta. apply wp_bind, wp_init_sub_amatrix; [lia|lia|]. apply wp_bind, wp_init_sub_amatrix; [lia|lia|]. cbn [wp].
      eapply HQ1.
      * split; [apply rkrep_sub; [exact V1|lia|lia]|]. split; [reflexivity|]. split; [reflexivity|]. intros c. split; intros Hc; exact Hc.
      * intros c Hc. apply V4. destruct Hc as [Hc|Hc]; [left|right]; (eapply inm_subm; [| |exact Hc]; cbn; lia).
      * intros m2. reflexivity.
    + intros m1 a1 n1 n2 E1 N1 (V1 & V2 & V3 & V4) c Hc. destruct V1 as (X & Y & HX & HY & _). apply V4 in Hc. destruct Hc as [Hc|Hc]; [exact (alloc_lt _ _ (inm_alloc _ _ _ _ HX Hc))|exact (alloc_lt _ _ (inm_alloc _ _ _ _ HY Hc))].
    + intros m1 a1 n1 n2 E1 N1 F F' m2 (V1 & V2 & V3 & V4) HM Hd1. split; [eapply rkrep_moves; [exact HM|exact V1|intros c Hc; apply Hd1, V4, Hc]|auto].
Qed.
End P.
