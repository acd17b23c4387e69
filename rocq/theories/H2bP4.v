(** * Projection of dense matrices and H-matrices *)
From Coq Require Import Arith Lia List Bool Permutation Ring.
From Verif Require Import Fld Ord Prog Arr View Loop Line Spec Cluster ClusterSpec Block BlockSpec BlockP BlockP2 Avector Amatrix AvectorP AmatrixP AmatrixP2 Rkmatrix RkSpec RkP Hmatrix HmSpec HmP HmP4 HmP5 HmP6
  Clusterbasis CbSpec CbP CbP2 CbP9 CbP10 Cbmgr CbmSpec CbmP OrthoP OrthoP3 OrthoP4 CopSpec CopP CopP2 H2matrix H2Spec H2P H2build H2bSpec H2bP H2bP2 H2bP3.
Import ListNotations.

Section P.
Context {K : fops} {G : ofops} (L : ring_laws K).
Add Ring KringH2b4 : (rl_ring K L).
Local Notation cbx := (cbasis G).
Local Notation h2x := (h2matrix G).
Implicit Types (m : mem K) (rb cb : cbasis G) (D : nat -> Prop) (Ls X : list mat) (M : cbasis G -> nat -> nat -> K) (h : h2matrix G).

Lemma bsplit_off cb l i s : cbplaced cb -> bsplit cb l -> nth_error l i = Some s -> cb_off s = cb_off cb + nsum i (at_ cb_size l) /\ cbplaced s.
Proof.
  intros Hp [->|[Hn ->]] Hs; [|apply placed_son; assumption]. destruct i as [|[|i]]; try discriminate. injection Hs as <-. cbn [nsum]. rewrite Nat.add_0_r. auto.
Qed.
Lemma fit_bases h s : h2fit h -> In s (h2leaves h) -> cbdesc (h2_rb h) (h2_rb s) /\ cbdesc (h2_cb h) (h2_cb s).
Proof.
  revert s. induction h as [h IH] using h2_rect'. intros s Hf Hs. inversion Hf as [| | |rb cb l R C ds S1 S2 El Hsn]; subst; cbn in Hs.
  1-3: destruct Hs as [<-|[]]; split; apply cbdesc_here.
  apply in_flat_map in Hs as (t & Ht & Hs). pose proof Ht as Ht0. apply In_nth_error in Ht as [k Hk]. destruct (flat_index k (length R) (length C)) as (i & j & Hi & Hj & ->); [rewrite <- El; eapply nth_lt; exact Hk|].
  destruct (Hsn i j t Hi Hj Hk) as (N1 & N2 & N3). destruct (IH l t eq_refl Ht0 s N3 Hs) as [D1 D2]. cbn [h2_rb h2_cb]. split; [eapply bsplit_desc; [exact S1|exact N1|exact D1]|eapply bsplit_desc; [exact S2|exact N2|exact D2]].
Qed.
Lemma desc_ind (P : cbx -> Prop) cb : P cb -> (forall c i s, P c -> nth_error (cb_son c) i = Some s -> P s) -> forall c, cbdesc cb c -> P c.
Proof.
  intros H0 Hs c Hc. induction Hc as [c|c s x Hin Hx IH]; [exact H0|]. apply IH. apply In_nth_error in Hin as [i Hi]. eapply Hs; [exact H0|exact Hi].
Qed.

(** ** Dense matrices *)
Section Dense.
Variables (ridx cidx : arr nat) (a : mat) (A : nat -> nat -> K) (gR gC : nat -> nat).
Notation cv := (cvals A gR gC).
Definition dready m0 X (ok : cbx -> Prop) cb : Prop := cbok cb /\ cbplaced cb /\ ok cb /\ cbinit m0 cb /\ incl (cbmats0 cb) X.
Lemma dready_desc idx g dim m0 X cb c : dready m0 X (fun c => idx_at idx (cb_off c) (cb_size c) (fun p => g (cb_off c + p)) dim) cb -> cbdesc cb c ->
  dready m0 X (fun c => idx_at idx (cb_off c) (cb_size c) (fun p => g (cb_off c + p)) dim) c.
Proof.
  intros H0 Hc. revert c Hc. apply desc_ind; [exact H0|]. intros c i s (K1 & K2 & K3 & K4 & K5) Hs. pose proof (nth_error_In _ _ Hs) as Hin.
  split; [apply (cbok_son c s K1 Hin)|]. split; [apply (placed_son c i s K2 Hs)|]. split; [eapply idx_son; eassumption|]. split; [eapply cbinit_son; eassumption|]. eapply son_incl; eassumption.
Qed.
Definition dpost m0 m' h : Prop :=
  (h2_u h <> None \/ h2_f h <> None) /\
  (forall B, h2_u h = Some B -> mval m' B (gal (cbmat m0) (h2_rb h) (h2_cb h) (cv (h2_rb h) (h2_cb h)))) /\ (forall F, h2_f h = Some F -> mval m' F (cv (h2_rb h) (h2_cb h))).

Lemma proj_of m0 m' h : h2fit h -> cbok (h2_rb h) -> cbok (h2_cb h) -> cbplaced (h2_rb h) -> cbplaced (h2_cb h) -> (forall s, In s (h2leaves h) -> dpost m0 m' s) ->
  forall Dm : nat -> nat -> K, (forall p q, p < h2rows h -> q < h2cols h -> Dm p q = cv (h2_rb h) (h2_cb h) p q) -> h2proj (cbmat m0) m' h Dm.
Proof.
  induction h as [h IH] using h2_rect'. intros Hf K1 K2 P1 P2 HS Dm HD. inversion Hf as [rb0 cb0 B ds E1 E2|rb0 cb0 F ds E1 E2|rb0 cb0 ds|rb0 cb0 l R C ds S1 S2 El Hsn]; subst h; cbn [h2_rb h2_cb h2leaves] in *;
    unfold h2rows, h2cols in HD; cbn [h2_rb h2_cb] in HD.
  - destruct (HS _ (or_introl eq_refl)) as (_ & HV & _). constructor. eapply mval_ext; [apply (HV B eq_refl)|]. intros i j _ _. cbn [h2_rb h2_cb]. apply gal_ext; [reflexivity|reflexivity|]. intros p q Hp Hq. symmetry. apply HD; assumption.
  - destruct (HS _ (or_introl eq_refl)) as (_ & _ & HV). constructor. eapply mval_ext; [apply (HV F eq_refl)|]. intros i j Hi Hj. cbn [h2_rb h2_cb]. symmetry. apply HD; lia.
  - destruct (HS _ (or_introl eq_refl)) as ([N|N] & _); contradiction N; reflexivity.
  - apply (h2proj_super _ _ _ _ _ _ _ _ (at_ cb_size R) (at_ cb_size C)); [exact El|apply bsplit_sum; assumption|apply bsplit_sum; assumption| |]; intros i j s Hi Hj Hs; destruct (Hsn i j s Hi Hj Hs) as (N1 & N2 & N3).
    { unfold h2rows, h2cols. rewrite (at_nth _ _ _ _ N1), (at_nth _ _ _ _ N2). split; reflexivity. }
    destruct (bsplit_off _ _ _ _ P1 S1 N1) as [O1 PL1]. destruct (bsplit_off _ _ _ _ P2 S2 N2) as [O2 PL2].
    apply (IH l s eq_refl (nth_error_In _ _ Hs)); [exact N3|eapply bsplit_ok; [exact K1|exact S1|exact N1]|eapply bsplit_ok; [exact K2|exact S2|exact N2]|exact PL1|exact PL2| |].
    + intros t Ht. apply HS. apply in_flat_map. exists s. split; [eapply nth_error_In; exact Hs|exact Ht].
    + intros p q Hp Hq. unfold h2rows, h2cols in Hp, Hq. pose proof (nsum_in (at_ cb_size R) i (length R) Hi) as B1. pose proof (nsum_in (at_ cb_size C) j (length C) Hj) as B2.
      rewrite (at_nth _ _ _ _ N1) in B1. rewrite (at_nth _ _ _ _ N2) in B2. rewrite (bsplit_sum rb0 R K1 S1) in B1. rewrite (bsplit_sum cb0 C K2 S2) in B2.
      rewrite HD by lia. unfold cvals. rewrite O1, O2, !Nat.add_assoc. reflexivity.
Qed.

Lemma wp_projd D m h X (Q : unit -> mem K -> Prop) : h2fit h -> (forall s, In s (h2leaves h) -> h2_u s <> None \/ h2_f s <> None) ->
  dready m X (ridx_ok ridx a gR) (h2_rb h) -> dready m X (cidx_ok cidx a gC) (h2_cb h) -> lm D m (h2mats h ++ X) -> mval m a A -> In (mblk a) (map mblk X) ->
  (forall m', h2proj (cbmat m) m' h (cv (h2_rb h) (h2_cb h)) -> lm D m' (h2mats h ++ X) -> kb (map mblk (h2mats h)) m m' -> Q tt m') ->
  wp TT TT (project_amatrix_h2matrix ridx cidx a h) m Q.
Proof.
  intros Hf Hnz HR HC HL HA Ba HQ. unfold project_amatrix_h2matrix.
  eapply wp_conseq; [apply (wp_each D _ X h (fun m1 s => same X m m1 /\ mval m1 a A) (fun m1 s => dpost m m1 s))|].
  - intros s m1 m2 _ (S1 & H1) S2. assert (S3 : same X m1 m2) by (eapply same_sub; [exact S2|apply incl_appr, incl_refl]). split; [eapply same_trans; eassumption|].
    eapply mval_keeps; [exact H1|exact S3|]. intros x Hx Hn. apply Hn. apply inm_blk in Hx. rewrite Hx. exact Ba.
  - intros s m1 m2 _ (N & H1 & H3) S2. split; [exact N|].
    split; intros B EB; (eapply same_mval; [|exact S2|]); auto; destruct s as [rb cb u f son rs cs ds]; cbn in EB; subst; rewrite h2mats_eq, !in_app_iff; left; [left|right; left]; left; reflexivity.
  - intros s m1 Ls Hs Hn (S1 & HA1) HL1 HI. pose proof (fit_leaves _ _ Hf Hs) as Hf1. destruct (fit_bases _ _ Hf Hs) as [D1 D2].
    destruct (dready_desc _ _ _ _ _ _ _ HR D1) as (R1 & R2 & R3 & R4 & R5). destruct (dready_desc _ _ _ _ _ _ _ HC D2) as (C1 & C2 & C3 & C4 & C5).
    assert (HN : forall B, In B (h2mats s) -> mblk a <> mblk B /\ mblk a < next m1).
    { intros B HB. apply in_map_iff in Ba as (a0 & Ea & Ha0). split.
      - rewrite <- Ea. intros E. destruct HL1 as (_ & ND & _). rewrite map_app in ND. apply (NoDup_app_disj _ _ (mblk B) ND); [apply in_map, HB|]. rewrite <- E. apply in_map, HI, Ha0.
      - rewrite <- Ea. eapply kb_blk; [exact HL1|]. apply in_or_app. right. apply HI, Ha0. }
    pose proof (Hnz s Hs) as Hnz1. inversion Hf1 as [rb0 cb0 B ds E1 E2|rb0 cb0 F ds E1 E2|rb0 cb0 ds|rb0 cb0 l R C ds T1 T2 El Hsn]; subst s; cbn [h2_u h2_f h2_son h2_rb h2_cb h2mats app] in *; try discriminate.
    + destruct (HN B (or_introl eq_refl)) as [N1 N2].
      eapply (wp_collect L ridx cidx a A gR gC rb0 R1 R2 R3 cb0 C1 C2 C3 D m1 B Ls).
      { exact HL1. } { exact E1. } { exact E2. } { eapply same_init; [exact R4|exact S1|exact R5]. } { eapply same_init; [exact C4|exact S1|exact C5]. }
      { eapply incl_tran; [exact R5|exact HI]. } { eapply incl_tran; [exact C5|exact HI]. } { exact HA1. } { exact N2. } { exact N1. }
      intros m2 HV HL2 HK. split; [|auto]. split; [exact Hnz1|]. split; intros B' EB; [|discriminate]. injection EB as <-. eapply mval_ext; [exact HV|]. intros i j _ _. cbn [h2_rb h2_cb].
      apply gal_ext; [| |reflexivity]; intros p q; eapply same_cbmat; eassumption.
    + destruct (HN F (or_introl eq_refl)) as [N1 N2]. apply wp_bind, wp_passert; [apply Nat.eqb_eq; exact E1|]. apply wp_bind, wp_passert; [apply Nat.eqb_eq; exact E2|].
      eapply wp_gather; [exact HL1|left; reflexivity|exact E1|exact E2|exact HA1|exact N1|exact R3|exact C3|]. intros m2 HV HL2 HK. split; [|auto]. split; [exact Hnz1|]. split; intros B' EB; [discriminate|]. injection EB as <-. exact HV.
    + destruct Hnz1 as [N|N]; contradiction N; reflexivity.
  - apply fit_shape, Hf.
  - apply incl_refl.
  - intros s _. split; [apply same_refl|exact HA].
  - exact HL.
  - apply incl_refl.
  - cbv beta. intros [] m' (H1 & H3 & H4). apply HQ; [|exact H3|exact H4]. destruct HR as (R1 & R2 & _). destruct HC as (C1 & C2 & _). apply proj_of; auto.
Qed.
End Dense.

(** ** H-matrices *)
Lemma h2proj_same M m m' h : forall (Dm : nat -> nat -> K) X, h2proj M m h Dm -> same X m m' -> incl (h2mats h) X -> h2proj M m' h Dm.
Proof.
  intros Dm X HP HS. induction HP as [rb cb B ds D HV|rb cb F ds D HV|rb cb l rsons csons ds hs ws D El E1 E2 E3 Hs IH]; intros HI; cbn [h2mats app] in HI.
  - constructor. eapply same_mval; [exact HV|exact HS|apply HI; left; reflexivity].
  - constructor. eapply same_mval; [exact HV|exact HS|apply HI; left; reflexivity].
  - apply (h2proj_super _ _ _ _ _ _ _ _ hs ws); [exact El|exact E1|exact E2|exact E3|]. intros i j s Hi Hj Hn. apply (IH i j s Hi Hj Hn). eapply incl_tran; [|exact HI]. apply flat_incl. eapply nth_error_In. exact Hn.
Qed.
Lemma h2proj_ext M m h : forall Dm Dm' : nat -> nat -> K, h2proj M m h Dm -> h2fit h -> (forall p q, p < h2rows h -> q < h2cols h -> Dm' p q = Dm p q) -> h2proj M m h Dm'.
Proof.
  intros Dm Dm' HP. revert Dm'. induction HP as [rb cb B ds D HV|rb cb F ds D HV|rb cb l rsons csons ds hs ws D El E1 E2 E3 Hs IH]; intros Dm' Hf HD; unfold h2rows, h2cols in HD; cbn [h2_rb h2_cb] in HD.
  - constructor. eapply mval_ext; [exact HV|]. intros i j _ _. apply gal_ext; [reflexivity|reflexivity|]. intros p q Hp Hq. symmetry. apply HD; assumption.
  - inversion Hf; subst. constructor. eapply mval_ext; [exact HV|]. intros i j Hi Hj. symmetry. apply HD; lia.
  - apply (h2proj_super _ _ _ _ _ _ _ _ hs ws); auto. intros i j s Hi Hj Hn. destruct (E3 i j s Hi Hj Hn) as [F1 F2]. apply (IH i j s Hi Hj Hn).
    + inversion Hf as [| | |? ? ? R C ? S1 S2 Q3 Hsn]; subst. apply (Hsn i j s Hi Hj Hn).
    + intros p q Hp Hq. rewrite F1 in Hp. rewrite F2 in Hq. apply HD.
      * rewrite <- E1. pose proof (nsum_in hs i rsons Hi). lia.
      * rewrite <- E2. pose proof (nsum_in ws j csons Hj). lia.
Qed.
Lemma set_rows_mval m B k f : mval m (rb B 0 k) f -> mval m (set_rows B k) f.
Proof. intros H i j Hi Hj. cbn in Hi, Hj. specialize (H i j). cbn [mrows mcols subm] in H. rewrite rb_ma in H. apply H; assumption. Qed.

Lemma mval_in X m m' V f : mval m V f -> same X m m' -> (forall x, inm V x -> In (fst x) (map mblk X)) -> mval m' V f.
Proof. intros HV HS HI. eapply mval_keeps; [exact HV|exact HS|]. intros x Hx Hn. apply Hn, HI, Hx. Qed.
Lemma wp_compressb D m cb V Ls f kV Xt (Q : unit -> mem K -> Prop) : cbok cb -> cbinit m cb -> incl (cbmats0 cb) Ls -> mval m V f -> mrows V = cb_size cb -> mcols V = kV ->
  lm D m (Xt :: Ls) -> (forall x, inm V x -> In (fst x) (map mblk Ls)) -> mrows Xt = cb_kbranch cb -> mcols Xt = kV ->
  (forall m', mval m' (set_rows Xt (cb_k cb)) (fun q j => sum (cb_size cb) (fun p => fconj (cbmat m cb p q) * f p j)%F) -> lm D m' (Xt :: Ls) -> kb [mblk Xt] m m' -> Q tt m') ->
  wp TT TT (compress_clusterbasis_amatrix cb V Xt) m Q.
Proof.
  intros Hok Hi Hin HV RV CV HL Nb RX CX HQ. destruct (lm_own _ _ _ Xt HL (or_introl eq_refl)) as (_ & _ & WX & AX).
  pose proof (cbok_kbranch_k cb Hok) as Hkb.
  eapply (wp_compressm L cb TT TT V Xt f).
  { exact Hok. } { exact Hi. } { lia. } { exact WX. } { exact AX. } { exact RV. } { lia. } { exact HV. }
  { intros x Hx Hb. apply inm_blk in Hb. apply Nb in Hx. rewrite Hb in Hx. apply (lm_nin _ _ _ _ HL Hx). }
  { intros x Hx Hb. apply inm_blk in Hb. apply (incb0 cb Ls Hin x Hx). rewrite Hb. apply (lm_nin _ _ _ _ HL). } { apply TTr. } { apply TTr. } { apply TTw. }
  intros m2 HX2 AX2 Kk2. assert (Kk2' : keeps (inm Xt) m m2) by (eapply rb_keeps; [|exact Kk2]; lia). apply HQ.
  - apply set_rows_mval. exact HX2.
  - eapply lm_write1; [exact HL|left; reflexivity|exact Kk2'|exact AX2].
  - apply kb_inm, Kk2'.
Qed.

Lemma gal_lowrank m rb cb kk (A B Dm : nat -> nat -> K) i k : (forall p q, p < cb_size rb -> q < cb_size cb -> Dm p q = lowrank kk A B p q) ->
  gal (cbmat m) rb cb Dm i k = sum kk (fun nu => sum (cb_size rb) (fun p => fconj (cbmat m rb p i) * A p nu)%F * fconj (sum (cb_size cb) (fun q => fconj (cbmat m cb q k) * B q nu)%F))%F.
Proof.
  intros HD. unfold gal.
  transitivity (sum (cb_size rb) (fun p => sum (cb_size cb) (fun q => sum kk (fun nu => fconj (cbmat m rb p i) * A p nu * (cbmat m cb q k * fconj (B q nu)))))%F).
  { apply sum_ext. intros p Hp. apply sum_ext. intros q Hq. rewrite HD by assumption. unfold lowrank. rewrite <- (sum_mul_l L), <- (sum_mul_r L). apply sum_ext. intros nu _. ring. }
  transitivity (sum (cb_size rb) (fun p => sum kk (fun nu => sum (cb_size cb) (fun q => fconj (cbmat m rb p i) * A p nu * (cbmat m cb q k * fconj (B q nu)))))%F).
  { apply sum_ext. intros p _. apply (sum_swap L). }
  rewrite (sum_swap L). apply sum_ext. intros nu _. rewrite <- (sum_mul_r L). apply sum_ext. intros p _. rewrite (sum_conj L), <- (sum_mul_l L). apply sum_ext. intros q _.
  rewrite (rl_conj_mul K L), (rl_conj_conj K L). ring.
Qed.

Definition hready m0 X cb : Prop := cbok cb /\ cbinit m0 cb /\ incl (cbmats0 cb) X.
Lemma hready_split m0 X cb l i s : hready m0 X cb -> bsplit cb l -> nth_error l i = Some s -> hready m0 X s.
Proof.
  intros (K1 & K2 & K3) [->|[Hn ->]] Hs; [destruct i as [|[|i]]; try discriminate; injection Hs as <-; split; auto|]. pose proof (nth_error_In _ _ Hs) as Hin.
  split; [apply (cbok_son cb s K1 Hin)|]. split; [eapply cbinit_son; eassumption|eapply son_incl; eassumption].
Qed.

Lemma wp_projh D m0 X h : forall (hm : hmatrix G) m Ls (Dm : nat -> nat -> K), h2fit h -> h2hm h hm -> hrep m hm Dm -> (forall a, inh hm a -> In (fst a) (map mblk X)) ->
  hready m0 X (h2_rb h) -> hready m0 X (h2_cb h) -> same X m0 m -> lm D m (h2mats h ++ Ls) -> incl X Ls ->
  wp TT TT (project_hmatrix_h2matrix h hm) m (fun _ m' => h2proj (cbmat m0) m' h Dm /\ lm D m' (h2mats h ++ Ls) /\ kb (map mblk (h2mats h)) m m').
Proof.
  induction h as [h IH] using h2_rect'. intros hm m Ls Dm Hf Hm HR Hin (R1 & R2 & R3) (C1 & C2 & C3) S0 HL HI.
  assert (HX : incl (map mblk X) (map mblk Ls)). { intros b Hb. apply in_map_iff in Hb as (B & <- & HB). apply in_map, HI, HB. }
  destruct Hm as [rb cb B ds r ds'|rb cb F ds f ds'|rb cb l rs cs ds l' ds' Hl HF]; cbn [h2_rb h2_cb] in *.
  - inversion Hf as [rb0 cb0 B0 ds0 E1 E2| | |]; subst. cbn [h2mats app] in *.
    inversion HR as [rc cc r0 ds0 Dm0 Q1 Q2 (A & B1 & VA & VB & QA & QB & QD)| |]; subst.
    cbn [project_hmatrix_h2matrix hm_r].
    assert (IA : forall x, inm (rk_A r) x -> In (fst x) (map mblk X)). { intros x Hx. apply Hin. eapply inh_r; [reflexivity|left; exact Hx]. }
    assert (IB : forall x, inm (rk_B r) x -> In (fst x) (map mblk X)). { intros x Hx. apply Hin. eapply inh_r; [reflexivity|right; exact Hx]. }
    assert (SL : same Ls m m) by apply same_refl.
    apply wp_bind. eapply wp_init_kb; [exact HL|]. intros s1 m1 E3 HL1 K1. pose proof (kb_next _ _ _ K1) as M1.
    assert (Bs1 : mblk s1 = next m) by (rewrite E3; reflexivity). assert (Rs1 : mrows s1 = cb_kbranch rb) by (rewrite E3; reflexivity). assert (Cs1 : mcols s1 = rk_k r) by (rewrite E3; reflexivity). clear E3.
    assert (S1 : same (B :: Ls) m m1) by (eapply same_new; [exact HL|exact K1]).
    assert (SX1 : same X m0 m1) by (eapply same_trans; [exact S0|]; eapply same_sub; [exact S1|]; intros Y HY; right; apply HI, HY).
    apply wp_bind. eapply (wp_compressb D m1 rb (rk_A r) (B :: Ls) A (rk_k r) s1).
    { exact R1. } { eapply same_init; [exact R2|exact SX1|exact R3]. } { apply incl_tl. eapply incl_tran; [exact R3|exact HI]. }
    { eapply mval_in; [exact VA|exact S1|]. intros x Hx. right. apply HX, IA, Hx. } { exact Q1. } { exact QA. } { exact HL1. } { intros x Hx. right. apply HX, IA, Hx. } { exact Rs1. } { exact Cs1. }
    intros m2 V2 HL2 K2. pose proof (kb_next _ _ _ K2) as M2. pose proof (kb_blk _ _ _ s1 HL1 (or_introl eq_refl)) as Ls1.
    assert (S2 : same (B :: Ls) m1 m2) by (eapply same_cons; [exact HL1|exact K2]).
    apply wp_bind. eapply wp_init_kb; [exact HL2|]. intros s2 m3 E3 HL3 K3. pose proof (kb_next _ _ _ K3) as M3.
    assert (Bs2 : mblk s2 = next m2) by (rewrite E3; reflexivity). assert (Rs2 : mrows s2 = cb_kbranch cb) by (rewrite E3; reflexivity). assert (Cs2 : mcols s2 = rk_k r) by (rewrite E3; reflexivity). clear E3.
    assert (S3 : same (s1 :: B :: Ls) m2 m3) by (eapply same_new; [exact HL2|exact K3]).
    assert (S03 : same (B :: Ls) m m3). { eapply same_trans; [exact S1|]. eapply same_trans; [exact S2|]. eapply same_sub; [exact S3|]. intros Y HY. right. exact HY. }
    assert (SX3 : same X m0 m3) by (eapply same_trans; [exact S0|]; eapply same_sub; [exact S03|]; intros Y HY; right; apply HI, HY).
    apply wp_bind. eapply (wp_compressb D m3 cb (rk_B r) (s1 :: B :: Ls) B1 (rk_k r) s2).
    { exact C1. } { eapply same_init; [exact C2|exact SX3|exact C3]. } { apply incl_tl, incl_tl. eapply incl_tran; [exact C3|exact HI]. }
    { eapply mval_in; [exact VB|exact S03|]. intros x Hx. right. apply HX, IB, Hx. } { exact Q2. } { exact QB. } { exact HL3. } { intros x Hx. right. right. apply HX, IB, Hx. } { exact Rs2. } { exact Cs2. }
    intros m4 V4 HL4 K4. pose proof (kb_next _ _ _ K4) as M4. pose proof (kb_blk _ _ _ s2 HL3 (or_introl eq_refl)) as Ls2.
    apply wp_bind. eapply wp_clear_lm; [exact HL4|right; right; left; reflexivity|]. intros m5 V5 HL5 K5. pose proof (kb_next _ _ _ K5) as M5.
    assert (LB : mblk B < next m) by (eapply kb_blk; [exact HL|left; reflexivity]).
    assert (V5a : mval m5 (set_rows s1 (cb_k rb)) (fun q j => sum (cb_size rb) (fun p => fconj (cbmat m1 rb p q) * A p j)%F)).
    { eapply mval_kb; [|exact K5|cbn; lia|cbn; lia]. eapply mval_kb; [|exact K4|cbn; lia|cbn; lia]. eapply mval_kb; [exact V2|exact K3|cbn; lia|intros []]. }
    assert (V5b : mval m5 (set_rows s2 (cb_k cb)) (fun q j => sum (cb_size cb) (fun p => fconj (cbmat m3 cb p q) * B1 p j)%F)).
    { eapply mval_kb; [exact V4|exact K5|cbn; lia|cbn; lia]. }
    apply wp_bind. eapply (wp_addmul_lm L D m5 _ f1 false (set_rows s1 (cb_k rb)) true (set_rows s2 (cb_k cb)) B); [exact HL5|right; right; left; reflexivity|cbn; lia|cbn; lia|exact V5a|exact V5b|exact V5|cbn; lia|cbn; lia|cbn; lia|].
    intros m6 V6 HL6 K6. apply wp_bind. eapply wp_uninit_kb; [exact HL6|]. intros m7 HL7 K7. eapply wp_uninit_kb; [exact HL7|]. intros m8 HL8 K8.
    pose proof (kb_next _ _ _ K6) as M6. pose proof (kb_next _ _ _ K7) as M7.
    split; [|split; [exact HL8|]].
    + constructor. assert (V8 : mval m8 B (fun i k => f0 + f1 * sum (mcols (set_rows s1 (cb_k rb))) (fun j => tr false (fun q j => sum (cb_size rb) (fun p => fconj (cbmat m1 rb p q) * A p j)) i j * tr true (fun q j => sum (cb_size cb) (fun p => fconj (cbmat m3 cb p q) * B1 p j)) j k))%F).
      { eapply mval_kb; [|exact K8|lia|cbn; lia]. eapply mval_kb; [exact V6|exact K7|lia|cbn; lia]. }
      eapply mval_ext; [exact V8|]. intros i k _ _. cbv beta. rewrite (gal_lowrank m0 rb cb (rk_k r) A B1 Dm i k) by (intros p q Hp Hq; apply QD; [rewrite Q1; exact Hp|rewrite Q2; exact Hq]).
      cbn [tr set_rows mcols]. rewrite Cs1.
      transitivity (sum (rk_k r) (fun j => sum (cb_size rb) (fun p => fconj (cbmat m1 rb p i) * A p j) * fconj (sum (cb_size cb) (fun p => fconj (cbmat m3 cb p k) * B1 p j)))%F); [ring|].
      apply sum_ext. intros j _. f_equal; [|f_equal]; apply sum_ext; intros p _; f_equal; f_equal; (eapply same_cbmat; [|eassumption]); assumption.
    + set (bs := [mblk s2; mblk s1; mblk B]) in *. assert (Kx : forall b m' m'', In b bs -> kb [b] m' m'' -> kb bs m' m'').
      { intros b m' m'' Hb HK. eapply kb_mono; [exact HK|]. intros x [<-|[]]. left. exact Hb. }
      assert (Ky : forall m' m'', kb [] m' m'' -> kb bs m' m''). { intros m' m'' HK. eapply kb_mono; [exact HK|]. intros x []. }
      assert (Kt : forall x y z : mem K, kb bs x y -> kb bs y z -> kb bs x z). { intros x y z H1 H3. eapply kb_trans; [exact H1|exact H3|auto|auto]. }
      assert (I1 : In (mblk s1) bs) by (cbn; auto). assert (I2 : In (mblk s2) bs) by (cbn; auto). assert (I3 : In (mblk B) bs) by (cbn; auto).
      assert (Kall : kb bs m m8).
      { eapply Kt; [apply Ky, K1|]. eapply Kt; [apply (Kx _ _ _ I1 K2)|]. eapply Kt; [apply Ky, K3|]. eapply Kt; [apply (Kx _ _ _ I2 K4)|]. eapply Kt; [apply (Kx _ _ _ I3 K5)|].
        eapply Kt; [apply (Kx _ _ _ I3 K6)|]. eapply Kt; [apply (Kx _ _ _ I2 K7)|]. apply (Kx _ _ _ I1 K8). }
      eapply (kb_trans [] bs [mblk B]); [apply kb_refl|exact Kall|intros b []|]. cbn. intros b [<-|[<-|[<-|[]]]]; auto; right; lia.
  - inversion Hf as [|rb0 cb0 B0 ds0 E1 E2| |]; subst. cbn [h2mats app] in *.
    inversion HR as [|rc cc f0 ds0 Dm0 Q1 Q2 VF|]; subst. cbn [project_hmatrix_h2matrix hm_f].
    assert (IA : forall x, inm f x -> In (fst x) (map mblk X)). { intros x Hx. apply Hin. eapply inh_f; [reflexivity|exact Hx]. }
    destruct (lm_own _ _ _ F HL (or_introl eq_refl)) as (_ & _ & WF & AF).
    eapply wp_copy_amatrix; [exact WF|exact VF|exact AF| |apply TTr|apply TTw|rewrite E1; exact Q1|rewrite E2; exact Q2|].
    { intros x Hx Hb. apply inm_blk in Hb. apply IA, HX in Hx. rewrite Hb in Hx. apply (lm_nin _ _ _ _ HL Hx). }
    intros m1 V1 Kk. destruct (lm_writep D m m1 _ F F _ HL (or_introl eq_refl) (fun x Hx => Hx) Kk V1) as [H1 H3]. split; [constructor; exact V1|]. split; [exact H1|exact H3].
  - inversion Hf as [| | |rb0 cb0 l0 R C ds0 S1 S2 El Hsn]; subst. inversion HR as [| |rc cc l0 rs cs ds0 hs ws Dm0 P1 P2 P3 P4 P5 P6 P7]; subst. cbn [h2mats app project_hmatrix_h2matrix hm_son] in *.
    apply wp_bind, wp_passert; [reflexivity|].
    assert (HF' : forall k s s', nth_error l k = Some s -> nth_error l' k = Some s' -> h2hm s s').
    { intros k s s' Hk Hk'. exact (BlockP.Forall2_nth _ _ _ HF _ _ _ Hk Hk'). }
    pose (shift := fun k (p q : nat) => Dm (nsum (k mod length R) hs + p) (nsum (k / length R) ws + q)).
    assert (Hflat : forall k s, nth_error l k = Some s -> exists i j s', i < length R /\ j < length C /\ k = i + j * length R /\ k mod length R = i /\ k / length R = j /\ nth_error l' k = Some s').
    { intros k s Hk. pose proof (nth_lt _ _ _ Hk) as Hlt. destruct (flat_index k (length R) (length C)) as (i & j & Hi & Hj & ->); [lia|]. destruct (nth_ex l' (i + j * length R)) as [s' Hs']; [lia|].
      exists i, j, s'. split; [exact Hi|]. split; [exact Hj|]. split; [reflexivity|]. split; [|split; [|exact Hs']].
      - rewrite Nat.mod_add by lia. apply Nat.mod_small, Hi.
      - rewrite Nat.div_add by lia. rewrite (Nat.div_small _ _ Hi). reflexivity. }
    assert (Hsub : forall k s', nth_error l' k = Some s' -> forall x, inh s' x -> In (fst x) (map mblk X)).
    { intros k s' Hk x Hx. apply Hin. eapply inh_son; [reflexivity|eapply nth_error_In; exact Hk|exact Hx]. }
    set (Pre := fun k (s : h2x) m1 => same X m0 m1 /\ forall s', nth_error l' k = Some s' -> hrep m1 s' (shift k)).
    set (Post := fun k (s : h2x) m1 => h2proj (cbmat m0) m1 s (shift k)).
    assert (PreS : forall k s m1 m2, nth_error l k = Some s -> Pre k s m1 -> same (h2mats s ++ Ls) m1 m2 -> Pre k s m2).
    { intros k s m1 m2 Hk (T1 & T2) HS. assert (HSX : same X m1 m2) by (eapply same_sub; [exact HS|apply incl_appr, HI]). split; [eapply same_trans; eassumption|]. intros s' Hs'.
      eapply hrep_keeps; [apply T2, Hs'|exact HSX|]. intros x Hx Hn. apply Hn. eapply Hsub; eassumption. }
    assert (PostS : forall k s m1 m2, nth_error l k = Some s -> Post k s m1 -> same (h2mats s ++ Ls) m1 m2 -> Post k s m2).
    { intros k s m1 m2 Hk HP HS. eapply h2proj_same; [exact HP|exact HS|apply incl_appl, incl_refl]. }
    eapply (wp_for (fun k m1 => inpl D l Ls m Pre Post k m1)).
    + apply inpl_0; [|exact HL]. intros k s Hk. split; [exact S0|]. intros s' Hs'. destruct (Hflat k s Hk) as (i & j & s1 & Hi & Hj & -> & E1 & E2 & _). unfold shift. rewrite E1, E2. apply (P7 i j s' Hi Hj Hs').
    + intros k m1 Hk HIk. destruct (nth_ex l k) as [s Es]; [lia|]. destruct (Hflat k s Es) as (i & j & s' & Hi & Hj & Ek & E1 & E2 & Es').
      rewrite (sget_some _ _ (project_hmatrix_h2matrix s)) by (rewrite nth_error_map, Es; reflexivity). cbn [bind]. rewrite (sget_some _ _ s' Es'). cbn [bind].
      eapply inpl_step; [exact PreS|exact PostS|exact Es|exact HIk| |intros m2 H2'; exact H2'].
      intros Ls1 (T1 & T2) HL1 HI1. rewrite Ek in Es. destruct (Hsn i j s Hi Hj Es) as (N1 & N2 & N3). rewrite <- Ek in Es.
      eapply wp_conseq; [apply (IH l s eq_refl (nth_error_In _ _ Es) s' m1 Ls1 (shift k))|].
      * exact N3. * eapply HF'; eassumption. * apply T2, Es'. * eapply Hsub; exact Es'.
      * eapply hready_split; [|exact S1|exact N1]. split; auto. * eapply hready_split; [|exact S2|exact N2]. split; auto.
      * exact T1. * exact HL1. * eapply incl_tran; [exact HI|exact HI1].
      * cbv beta. intros [] m2 HP. exact HP.
    + intros m1 HIk. rewrite Nat.add_0_l, <- El in HIk. apply inpl_end in HIk as (HP & HL1 & HK1). split; [|auto].
      apply (h2proj_super _ _ _ _ _ _ _ _ hs ws); [exact El|exact P4|exact P5| |]; intros i j s Hi Hj Hs; destruct (Hflat _ s Hs) as (i' & j' & s' & Hi' & Hj' & Ek & E1 & E2 & Es').
      * destruct (P6 i j s' Hi Hj Es') as [T1 T2]. pose proof (HF' _ _ _ Hs Es') as T3. rewrite <- T1, <- T2. unfold h2rows, h2cols, hrows, hcols. destruct T3; split; reflexivity.
      * pose proof (HP _ s Hs) as HP1. unfold Post, shift in HP1. rewrite Nat.mod_add in HP1 by lia. rewrite (Nat.mod_small _ _ Hi) in HP1. rewrite Nat.div_add in HP1 by lia. rewrite (Nat.div_small _ _ Hi) in HP1. exact HP1.
Qed.

(** ** Matrices that are already represented are reproduced. *)
Lemma gal_vsw M rb cb (Su Dm : nat -> nat -> K) i k : orthonormal (cb_size rb) (cb_k rb) (M rb) -> orthonormal (cb_size cb) (cb_k cb) (M cb) ->
  (forall p q, p < cb_size rb -> q < cb_size cb -> Dm p q = vsw M rb cb Su p q) -> i < cb_k rb -> k < cb_k cb -> gal M rb cb Dm i k = Su i k.
Proof.
  intros O1 O2 HD Hi Hk. unfold gal.
  transitivity (sum (cb_size rb) (fun p => sum (cb_size cb) (fun q => sum (cb_k rb) (fun r => sum (cb_k cb) (fun c => (fconj (M rb p i) * M rb p r) * Su r c * (fconj (M cb q c) * M cb q k)))))%F).
  { apply sum_ext. intros p Hp. apply sum_ext. intros q Hq. rewrite HD by assumption. unfold vsw. rewrite <- (sum_mul_l L), <- (sum_mul_r L). apply sum_ext. intros r _.
    rewrite <- (sum_mul_l L), <- (sum_mul_r L). apply sum_ext. intros c _. ring. }
  transitivity (sum (cb_k rb) (fun r => sum (cb_k cb) (fun c => sum (cb_size rb) (fun p => fconj (M rb p i) * M rb p r)%F * Su r c * sum (cb_size cb) (fun q => fconj (M cb q c) * M cb q k)%F)%F)).
  { transitivity (sum (cb_size rb) (fun p => sum (cb_k rb) (fun r => sum (cb_size cb) (fun q => sum (cb_k cb) (fun c => (fconj (M rb p i) * M rb p r) * Su r c * (fconj (M cb q c) * M cb q k)))))%F).
    { apply sum_ext. intros p _. apply (sum_swap L). }
    rewrite (sum_swap L). apply sum_ext. intros r _.
    transitivity (sum (cb_size rb) (fun p => sum (cb_k cb) (fun c => sum (cb_size cb) (fun q => (fconj (M rb p i) * M rb p r) * Su r c * (fconj (M cb q c) * M cb q k))))%F).
    { apply sum_ext. intros p _. apply (sum_swap L). }
    rewrite (sum_swap L). apply sum_ext. intros c _. rewrite <- (sum_mul_r L), <- (sum_mul_r L). apply sum_ext. intros p _. rewrite <- (sum_mul_l L). apply sum_ext. intros q _. ring. }
  rewrite (sum_single L _ i) by (first [assumption|intros r Hr Hn; apply (sum_0 L); intros c Hc; rewrite (O1 i r Hi Hr); unfold idf; destruct (Nat.eqb_spec i r) as [E|E]; [congruence|ring]]).
  rewrite (sum_single L _ k) by (first [assumption|intros c Hc Hn; rewrite (O2 c k Hc Hk); unfold idf; destruct (Nat.eqb_spec c k) as [E|E]; [congruence|ring]]).
  rewrite (O1 i i Hi Hi), (O2 k k Hk Hk). unfold idf. rewrite !Nat.eqb_refl. ring.
Qed.
Lemma rep_of_proj M m m' h : forall Dm : nat -> nat -> K, h2rep M m h Dm -> h2proj M m' h Dm ->
  (forall s, In s (h2leaves h) -> orthonormal (cb_size (h2_rb s)) (cb_k (h2_rb s)) (M (h2_rb s)) /\ orthonormal (cb_size (h2_cb s)) (cb_k (h2_cb s)) (M (h2_cb s))) ->
  h2rep M m' h Dm.
Proof.
  intros Dm HR. induction HR as [rb cb A Su ds D H1 H3 H4 H5|rb cb F ds D H1 H3 H4|rb cb ds D H1|rb cb l rsons csons ds hs ws D P1 P2 P3 P4 P5 P6 P7 IH]; intros HP HO.
  - destruct (HO _ (or_introl eq_refl)) as [O1 O2]. cbn [h2_rb h2_cb] in *. inversion HP as [? ? ? ? ? HV| |]; subst. apply (h2rep_u _ _ _ _ _ Su); auto. eapply mval_ext; [exact HV|]. intros i k Hi Hk. apply gal_vsw; [assumption..|lia|lia].
  - inversion HP as [|? ? ? ? ? HV|]; subst. apply h2rep_f; auto.
  - apply h2rep_zero. exact H1.
  - inversion HP as [| |? ? ? ? ? ? hs' ws' ? T1 T2 T3 T4 T5]; subst. apply (h2rep_super _ _ _ _ _ _ _ _ hs ws); auto. intros i j s Hi Hj Hs. apply (IH i j s Hi Hj Hs).
    + assert (E : forall i' j' s', i' < rsons -> j' < csons -> nth_error l (i' + j' * rsons) = Some s' -> hs' i' = hs i' /\ ws' j' = ws j').
      { intros i' j' s' Hi' Hj' Hs'. destruct (P6 _ _ _ Hi' Hj' Hs') as [<- <-]. destruct (T4 _ _ _ Hi' Hj' Hs') as [<- <-]. auto. }
      assert (EX : forall i' j', i' < rsons -> j' < csons -> exists s', nth_error l (i' + j' * rsons) = Some s').
      { intros i' j' Hi' Hj'. destruct (nth_ex l (i' + j' * rsons)) as [s' Hs']; [rewrite P3; apply pos_lt; assumption|]. exists s'. exact Hs'. }
      assert (E1 : nsum i hs' = nsum i hs). { apply nsum_ext. intros i' Hi'. destruct (EX i' 0) as [s' Hs']; [lia|lia|]. apply (E i' 0 s'); [lia|lia|exact Hs']. }
      assert (E2 : nsum j ws' = nsum j ws). { apply nsum_ext. intros j' Hj'. destruct (EX 0 j') as [s' Hs']; [lia|lia|]. apply (E 0 j' s'); [lia|lia|exact Hs']. }
      rewrite <- E1, <- E2. apply (T5 i j s Hi Hj Hs).
    + intros t Ht. apply HO. cbn [h2leaves]. apply in_flat_map. exists s. split; [eapply nth_error_In; exact Hs|exact Ht].
Qed.
End P.
