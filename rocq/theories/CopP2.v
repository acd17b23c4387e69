(** * Cluster operators: products of bases, construction and deletion *)
From Coq Require Import Arith Lia List Bool Permutation Ring.
From Verif Require Import Fld Ord Prog Arr View Loop Line Spec Cluster Block BlockP Avector Amatrix AvectorP AmatrixP AmatrixP2 RkP Hmatrix HmSpec HmP Clusterbasis CbSpec CbP CbP2 CbP9 CbP10
  Cbmgr CbmSpec CbmP CbmP2 CbmP3 Chol Qr Clusterop CopSpec OrthoP OrthoP3 OrthoP4 CopP.
Import ListNotations.

Section P.
Context {K : fops} {G : ofops} (L : ring_laws K).
Add Ring KringCo2 : (rl_ring K L).
Local Notation cbx := (cbasis G).
Local Notation cox := (clusterop G).
Implicit Types (m : mem K) (cb s : cbasis G) (D : nat -> Prop) (Ls X : list mat) (F f e : nat -> nat -> K) (l : list cbx) (co c : cox) (cl : list cox).

Lemma leaf_V m cb : cbok cb -> cbinit m cb -> cb_son cb = [] -> mval m (cb_V cb) (cbmat m cb) /\ mrows (cb_V cb) = cb_size cb /\ mcols (cb_V cb) = cb_k cb.
Proof.
  intros Hok Hi E. rewrite (cbmat_leaf m cb E). destruct cb as [t k kt kb0 V E0 l Z]. cbn [cb_son] in E. subst l. split; [eapply cbinit_V; exact Hi|]. inversion Hok; [split; assumption|congruence].
Qed.

(** A compressed matrix: the product of a basis and a leaf matrix, stored in a new matrix *)
Lemma wp_bpmix D m (t : bool) cb V C Ls f kV (Q : unit -> mem K -> Prop) :
  cbok cb -> cbinit m cb -> incl (cbmats0 cb) Ls -> In V Ls -> mval m V f -> mrows V = cb_size cb -> mcols V = kV ->
  mrows C = (if t then kV else cb_k cb) -> mcols C = (if t then cb_k cb else kV) -> lm D m (C :: Ls) ->
  (forall m', mval m' C (tr t (fun q j => sum (cb_size cb) (fun p => fconj (cbmat m cb p q) * f p j)%F)) -> lm D m' (C :: Ls) -> kb [mblk C] m m' -> Q tt m') ->
  wp TT TT (Xt <- init_amatrix (cb_kbranch cb) kV ;; compress_clusterbasis_amatrix cb V Xt ;;; X <- init_sub_amatrix Xt (cb_k cb) 0 kV 0 ;;
    copy_amatrix t X C ;;; uninit_amatrix Xt) m Q.
Proof.
  intros Hok Hi Hin HV Hf RV CV RC CC HL HQ.
  apply wp_bind. eapply wp_init_kb; [exact HL|]. intros Xt m1 EX HL1 K1. pose proof (kb_next _ _ _ K1) as M1.
  assert (BX : mblk Xt = next m) by (rewrite EX; reflexivity). assert (RX : mrows Xt = cb_kbranch cb) by (rewrite EX; reflexivity). assert (CX : mcols Xt = kV) by (rewrite EX; reflexivity). clear EX.
  destruct (lm_own _ _ _ Xt HL1 (or_introl eq_refl)) as (_ & _ & WX & AX).
  assert (NX : forall A, In A (C :: Ls) -> mblk A <> mblk Xt). { intros A HA. apply (lm_neq _ _ _ _ A HL1 HA). }
  assert (HB : forall A g, In A (C :: Ls) -> mval m A g -> mval m1 A g). { intros A g HA Hg. eapply mval_kb; [exact Hg|exact K1|eapply kb_blk; [exact HL|exact HA]|intros []]. }
  assert (HS1 : same Ls m m1). { eapply same_kb; [exact K1|]. intros A HA. split; [eapply kb_blk; [exact HL|right; exact HA]|intros []]. }
  assert (DX : disj (incb cb) (inm Xt)).
  { intros a Ha Hb. apply inm_blk in Hb. apply (incb0 cb Ls Hin a Ha). rewrite Hb. intros HI. apply in_map_iff in HI as (A & EA & HA). apply (NX A (or_intror HA) EA). }
  pose proof (cbok_kbranch_k cb Hok) as Hkb.
  apply wp_bind. eapply (wp_compressm L cb TT TT V Xt f).
  { exact Hok. } { eapply same_init; [exact Hi|exact HS1|exact Hin]. } { lia. } { exact WX. } { exact AX. } { exact RV. } { lia. } { apply HB; [right; exact HV|exact Hf]. }
  { intros a Ha Hb. apply inm_blk in Ha, Hb. apply (NX V (or_intror HV)). congruence. } { exact DX. } { apply TTr. } { apply TTr. } { apply TTw. }
  intros m2 HX2 AX2 Kk2.
  assert (Kk2' : keeps (inm Xt) m1 m2) by (eapply rb_keeps; [|exact Kk2]; lia).
  assert (HL2 : lm D m2 (Xt :: C :: Ls)) by (eapply lm_write1; [exact HL1|left; reflexivity|exact Kk2'|exact AX2]). pose proof (kb_inm _ _ _ Kk2') as K2. pose proof (kb_next _ _ _ K2) as M2.
  apply wp_bind. apply wp_init_sub_amatrix; [lia|lia|]. apply wp_bind.
  eapply (wp_copy_lm D m2 _ t _ C C (fun q j => sum (cb_size cb) (fun p => fconj (cbmat m cb p q) * f p j)%F)).
  { exact HL2. } { right. left. reflexivity. } { apply (lm_own _ _ _ C HL2 (or_intror (or_introl eq_refl))). } { auto. } { reflexivity. }
  { intros q j Hq Hj. cbn [mrows mcols subm] in Hq, Hj. etransitivity; [apply (HX2 q j); [exact Hq|cbn; lia]|]. f_equal. unfold fwdc. apply sum_ext. intros p _. rewrite (same_cbmat Ls m m1 cb HS1 Hin). reflexivity. }
  { cbn. intros E. apply (NX C (or_introl eq_refl)). symmetry. exact E. } { cbn. destruct t; lia. } { cbn. destruct t; lia. }
  intros m3 HC3 HL3 K3 _. pose proof (kb_next _ _ _ K3) as M3.
  eapply wp_uninit_kb; [exact HL3|]. intros m4 HL4 K4. apply HQ; [|exact HL4|].
  - eapply mval_kb; [exact HC3|exact K4|eapply kb_blk; [exact HL3|right; left; reflexivity]|]. intros [E|[]]. apply (NX C (or_introl eq_refl)). symmetry. exact E.
  - assert (Y2 : kb [mblk C] m m2) by (eapply kb_trans; [exact K1|exact K2|intros b []|intros b [<-|[]]; right; lia]).
    assert (Y3 : kb [mblk C] m m3) by (eapply kb_trans; [exact Y2|exact K3|auto|intros b [<-|[]]; left; left; reflexivity]).
    eapply kb_trans; [exact Y3|exact K4|auto|intros b [<-|[]]; right; lia].
Qed.

Lemma gram_conj m cb1 cb2 i j : cb_size cb1 = cb_size cb2 -> fconj (gram m cb1 cb2 i j) = gram m cb2 cb1 j i.
Proof. intros E. unfold gram. rewrite (sum_conj L), E. apply sum_ext. intros p _. rewrite (rl_conj_mul K L), (rl_conj_conj K L). ring. Qed.

Theorem wp_basisproduct (pr : cox) : bp_ok (K := K) pr.
Proof.
  induction pr as [pr IH] using co_rect'. destruct pr as [t r c1 C cs]. cbn [co_son] in IH.
  intros cb1 cb2 D Ls m Q Ok1 Ok2 Hi1 Hi2 Hfor In1 In2 HL HQ.
  destruct (prfor_inv _ _ _ Hfor) as (T1 & T2 & R1 & R2 & HE & HN & HF). cbn [co_t co_C co_krow co_kcol co_son] in *.
  assert (ES : cb_size cb2 = cb_size cb1) by (unfold cb_size; congruence).
  destruct cs as [|p0 cs0].
  - cbn [basisproduct_clusteroperator co_t]. rewrite T1, T2, cp_eqb_refl. cbn [passert bind].
    cbn [comats flat_map app] in HL. apply wp_bind. eapply wp_resize_co; [exact HL|exact R1|exact R2|]. intros C' m1 E1 E2 HL1 HB K1. cbn [co_C].
    assert (HS1 : same Ls m m1). { eapply same_kb; [exact K1|]. intros A HA. split; [eapply kb_blk; [exact HL|right; exact HA]|]. intros [E|[]]. apply (lm_neq _ _ _ _ A HL HA). symmetry. exact E. }
    assert (FIN : forall m2, mval m2 C' (gram m cb1 cb2) -> lm D m2 (C' :: Ls) -> kb [mblk C'] m1 m2 -> Q (CO t (cb_k cb1) (cb_k cb2) C' []) m2).
    { intros m2 HC2 HL2 K2. apply HQ; cbn [co_t co_son length].
      - constructor; cbn; auto. intros [|i] s1 s2 p _ _ Hp; discriminate.
      - constructor; cbn; auto; try (intros Hc; contradiction Hc; reflexivity); intros [|i] s1 s2 p _ _ Hp; discriminate.
      - reflexivity.
      - reflexivity.
      - exact HL2.
      - intros b [<-|[]]. cbn. destruct HB as [HB|HB]; [left; left; symmetry; exact HB|right; exact HB].
      - cbn. eapply kb_trans; [exact K1|exact K2|auto|]. intros b [<-|[]]. destruct HB as [HB|HB]; [left; left; symmetry; exact HB|right; exact HB]. }
    assert (HG1 : forall m2 cb (HI : incl (cbmats0 cb) Ls), same Ls m m2 -> forall p q, cbmat m2 cb p q = cbmat m cb p q) by (intros m2 cb HI HS; apply (same_cbmat Ls m m2 cb HS HI)).
    assert (HI11 : cbinit m1 cb1) by (eapply same_init; eassumption). assert (HI12 : cbinit m1 cb2) by (eapply same_init; eassumption).
    assert (InV1 : In (cb_V cb1) Ls) by (apply In1; left; reflexivity). assert (InV2 : In (cb_V cb2) Ls) by (apply In2; left; reflexivity).
    assert (WR : forall (A : Type) (p : prog K unit) (x : cox), wp TT TT p m1 (fun _ m2 => Q x m2) -> wp TT TT (p ;;; Ret x) m1 Q).
    { intros _ p x Hp. apply wp_bind. exact Hp. }
    destruct (cb_son cb1) as [|x1 y1] eqn:S1; [destruct (cb_son cb2) as [|x2 y2] eqn:S2|].
    + destruct (leaf_V m1 cb1 Ok1 HI11 S1) as (V1 & V2 & V3). destruct (leaf_V m1 cb2 Ok2 HI12 S2) as (W1 & W2 & W3).
      apply (WR unit). apply wp_bind. eapply wp_clear_lm; [exact HL1|left; reflexivity|]. intros m2 HC2 HL2 K2.
      assert (N : forall A, In A Ls -> mblk A <> mblk C') by (intros A HA; apply (lm_neq _ _ _ _ A HL1 HA)).
      assert (KM : forall A f, In A Ls -> mval m1 A f -> mval m2 A f).
      { intros A f HA Hf. eapply mval_kb; [exact Hf|exact K2|eapply kb_blk; [exact HL1|right; exact HA]|]. intros [E|[]]. apply (N A HA). symmetry. exact E. }
      eapply (wp_addmul_lm L D m2 _ f1 true (cb_V cb1) false (cb_V cb2) C').
      { exact HL2. } { left. reflexivity. } { apply N, InV1. } { apply N, InV2. } { apply KM; [exact InV1|exact V1]. } { apply KM; [exact InV2|exact W1]. } { exact HC2. } { lia. } { lia. } { lia. }
      cbn [tr]. rewrite V2. intros m3 HC3 HL3 K3. apply FIN; [|exact HL3|].
      * intros i j Hi Hj. rewrite (HC3 i j Hi Hj). f_equal. unfold gram.
        transitivity (sum (cb_size cb1) (fun p => fconj (cbmat m1 cb1 p i) * cbmat m1 cb2 p j)%F); [set (y := sum _ _); clearbody y; ring|].
        apply sum_ext. intros p _. rewrite !(HG1 m1) by assumption. reflexivity.
      * eapply kb_trans; [exact K2|exact K3|auto|auto].
    + destruct (leaf_V m1 cb1 Ok1 HI11 S1) as (V1 & V2 & V3). apply (WR unit).
      eapply (wp_bpmix D m1 true cb2 (cb_V cb1) C' Ls (cbmat m1 cb1) (cb_k cb1)); try assumption; [lia|].
      intros m2 HC2 HL2 K2. apply FIN; [|exact HL2|exact K2]. intros i j Hi Hj. rewrite (HC2 i j Hi Hj). f_equal. cbn [tr].
      transitivity (fconj (gram m cb2 cb1 j i)); [|apply gram_conj, ES]. f_equal. unfold gram. apply sum_ext. intros p _. rewrite !(HG1 m1) by assumption. reflexivity.
    + destruct (HE eq_refl) as [S2|S2]; [discriminate|]. rewrite S2. cbn [length Nat.eqb passert bind]. destruct (leaf_V m1 cb2 Ok2 HI12 S2) as (W1 & W2 & W3). apply (WR unit).
      eapply (wp_bpmix D m1 false cb1 (cb_V cb2) C' Ls (cbmat m1 cb2) (cb_k cb2)); try assumption; [lia|].
      intros m2 HC2 HL2 K2. apply FIN; [|exact HL2|exact K2]. intros i j Hi Hj. rewrite (HC2 i j Hi Hj). f_equal. cbn [tr]. unfold gram.
      apply sum_ext. intros p _. rewrite !(HG1 m1) by assumption. reflexivity.
  - destruct (HN ltac:(discriminate)) as (N1 & N2). rewrite bp_eq_node, T1, T2, cp_eqb_refl, N1, N2, Nat.eqb_refl. cbn [passert bind]. set (cs := p0 :: cs0) in *.
    cbn [comats] in HL. assert (HL0 : lm D m (C :: flat_map comats cs ++ Ls)) by exact HL.
    apply wp_bind. eapply wp_resize_co; [exact HL0|exact R1|exact R2|]. intros C' m1 E1 E2 HL1 HB K1. cbn [co_C co_setsons].
    assert (NSon : cb_son cb1 <> []) by (intros E; rewrite E in N1; discriminate).
    assert (HS1 : same Ls m m1). { eapply same_kb; [exact K1|]. intros A HA. split; [eapply kb_blk; [exact HL0|right; apply in_or_app; right; exact HA]|]. intros [E|[]]. apply (lm_neq _ _ _ _ A HL0); [apply in_or_app; right; exact HA|symmetry; exact E]. }
    assert (HI11 : cbinit m1 cb1) by (eapply same_init; eassumption). assert (HI12 : cbinit m1 cb2) by (eapply same_init; eassumption).
    assert (M1 := kb_next _ _ _ K1).
    apply wp_bind. change 0 with (length (@nil cox)) at 1.
    eapply (wp_bpsons D m1 cb1 cb2 (C' :: Ls) cs) with (bs := []); [exact IH| |exact N1|exact N2|reflexivity|reflexivity|intros i s1 s2 p Hi; cbn in Hi; lia|apply keeps_refl| |intros b []|apply kb_refl|].
    { intros i s1 s2 p H1 H2 H3. pose proof (nth_error_In _ _ H1) as I1. pose proof (nth_error_In _ _ H2) as I2.
      split; [apply (cbok_son cb1 s1 Ok1 I1)|]. split; [apply (cbok_son cb2 s2 Ok2 I2)|]. split; [exact (cbinit_son m1 cb1 s1 HI11 I1)|]. split; [exact (cbinit_son m1 cb2 s2 HI12 I2)|].
      split; [intros A HA; right; apply In1; eapply son_mats; [exact I1|exact HA]|]. split; [intros A HA; right; apply In2; eapply son_mats; [exact I2|exact HA]|]. eapply HF; eassumption. }
    { eapply lm_perm; [|exact HL1]. perm. }
    cbn [app]. intros cl m2 Hlen HP HS2 HL2 HN2 K2. pose proof (kb_next _ _ _ K2) as M2.
    assert (HL2' : lm D m2 (C' :: flat_map comats cl ++ Ls)) by (eapply lm_perm; [|exact HL2]; perm).
    apply wp_bind. eapply wp_clear_lm; [exact HL2'|left; reflexivity|]. intros m3 HC3 HL3 K3. pose proof (kb_next _ _ _ K3) as M3.
    assert (HS3 : same (flat_map comats cl ++ Ls) m2 m3). { eapply same_kb; [exact K3|]. intros A HA. split; [eapply kb_blk; [exact HL2'|right; exact HA]|]. intros [E|[]]. apply (lm_neq _ _ _ _ A HL2' HA). symmetry. exact E. }
    assert (HS12 : same Ls m1 m2). { eapply same_sub; [exact HS2|]. intros A HA. right. exact HA. }
    assert (HS03 : same Ls m m3). { eapply same_trans; [exact HS1|]. eapply same_trans; [exact HS12|]. eapply same_sub; [exact HS3|]. intros A HA. apply in_or_app. right. exact HA. }
    assert (HG : forall cb, incl (cbmats0 cb) Ls -> forall p q, cbmat m3 cb p q = cbmat m cb p q) by (intros cb HI; apply (same_cbmat Ls m m3 cb HS03 HI)).
    assert (HG1 : forall cb, incl (cbmats0 cb) Ls -> forall p q, cbmat m1 cb p q = cbmat m cb p q) by (intros cb HI; apply (same_cbmat Ls m m1 cb HS1 HI)).
    assert (HP3 : forall i s1 s2 p, nth_error (cb_son cb1) i = Some s1 -> nth_error (cb_son cb2) i = Some s2 -> nth_error cl i = Some p -> prod_of m m3 s1 s2 p /\ prfor s1 s2 p).
    { intros i s1 s2 p H1 H2 H3. destruct (HP i s1 s2 p H1 H2 H3) as (P1 & P2). split; [|exact P2]. pose proof (nth_error_In _ _ H1) as I1. pose proof (nth_error_In _ _ H2) as I2.
      eapply prod_src; [eapply prod_same; [exact P1|exact HS3|]|exact HS1| |].
      - intros A HA. apply in_or_app. left. apply in_flat_map. exists p. split; [eapply nth_error_In; exact H3|exact HA].
      - intros A HA. apply In1. eapply son_mats; [exact I1|apply mats0_in, HA].
      - intros A HA. apply In2. eapply son_mats; [exact I2|apply mats0_in, HA]. }
    assert (HI31 : cbinit m3 cb1) by exact (same_init Ls m m3 cb1 Hi1 HS03 In1). assert (HI32 : cbinit m3 cb2) by exact (same_init Ls m m3 cb2 Hi2 HS03 In2).
    assert (Lc1 : length (cb_son cb1) = length cl) by (rewrite Hlen; exact N1). assert (Lc2 : length (cb_son cb2) = length cl) by (rewrite Hlen; exact N2).
    apply wp_bind. eapply (wp_bploop L D m3 cb1 cb2 t (cb_k cb1) (cb_k cb2) C' cs cl (flat_map comats cl ++ Ls)); [exact E1|exact E2|exact Lc1|exact Lc2| |exact HC3|exact HL3|].
    { intros i s1 s2 p H1 H2 H3. pose proof (nth_error_In _ _ H1) as I1. pose proof (nth_error_In _ _ H2) as I2. destruct (HP3 i s1 s2 p H1 H2 H3) as (P1 & P2).
      destruct (prfor_inv _ _ _ P2) as (_ & _ & Q1 & Q2 & _). inversion P1 as [? ? ? P3 P4 P5 P6]; subst. destruct (cbok_son cb1 s1 Ok1 I1) as (_ & A1 & A2). destruct (cbok_son cb2 s2 Ok2 I2) as (_ & B1 & B2).
      split. { intros x y Hx Hy. rewrite (P5 x y Hx Hy). f_equal. unfold gram. apply sum_ext. intros q _. rewrite (HG s1 (fun A HA => In1 A (son_mats cb1 s1 I1 A (mats0_in s1 A HA)))), (HG s2 (fun A HA => In2 A (son_mats cb2 s2 I2 A (mats0_in s2 A HA)))). reflexivity. }
      split; [lia|]. split; [lia|]. split. { apply in_or_app. left. apply in_flat_map. exists p. split; [eapply nth_error_In; exact H3|]. destruct p. left. reflexivity. }
      split; [exact (cbinit_E m3 cb1 s1 HI31 I1)|]. split; [exact A1|]. split; [exact A2|]. split. { apply in_or_app. right. apply In1. eapply son_mats; [exact I1|]. rewrite cbmats_E. right. left. reflexivity. }
      split; [exact (cbinit_E m3 cb2 s2 HI32 I2)|]. split; [exact B1|]. split; [exact B2|]. apply in_or_app. right. apply In2. eapply son_mats; [exact I2|]. rewrite cbmats_E. right. left. reflexivity. }
    intros m4 HC4 HL4 K4. cbn [wp co_setsons].
    assert (HS4 : same (flat_map comats cl ++ Ls) m3 m4). { eapply same_kb; [exact K4|]. intros A HA. split; [eapply kb_blk; [exact HL3|right; exact HA]|]. intros [E|[]]. apply (lm_neq _ _ _ _ A HL3 HA). symmetry. exact E. }
    apply HQ; cbn [co_t co_son].
    + constructor; cbn [co_krow co_kcol co_C co_son]; [reflexivity|reflexivity| |].
      * intros i j Hi Hj. rewrite (HC4 i j Hi Hj), <- Lc1. f_equal. rewrite <- (gram_node L m3 cb1 cb2 i j Ok1 NSon).
        -- unfold gram. apply sum_ext. intros p _. rewrite !HG by assumption. reflexivity.
        -- lia.
        -- intros n s1 s2 H1 H2. destruct (nth_ex cl n) as [p Hp]; [apply nth_in in H1; lia|]. destruct (HP3 n s1 s2 p H1 H2 Hp) as (_ & P2). destruct (prfor_inv _ _ _ P2) as (Q1 & Q2 & _). unfold cb_size. congruence.
      * intros i s1 s2 p H1 H2 H3. destruct (HP3 i s1 s2 p H1 H2 H3) as (P1 & _). eapply prod_same; [exact P1|exact HS4|]. intros A HA. apply in_or_app. left. apply in_flat_map. exists p. split; [eapply nth_error_In; exact H3|exact HA].
    + constructor; cbn [co_t co_krow co_kcol co_C co_son]; auto.
      * intros E. subst cl. discriminate.
      * intros i s1 s2 p H1 H2 H3. apply (HP3 i s1 s2 p H1 H2 H3).
    + reflexivity.
    + exact Hlen.
    + exact HL4.
    + intros b Hb. cbn [comats map] in Hb |- *. destruct Hb as [<-|Hb].
      * destruct HB as [HB|HB]; [left; left; symmetry; exact HB|right; exact HB].
      * apply HN2 in Hb as [Hb|Hb]; [left; right; exact Hb|right; lia].
    + cbn [comats map].
      assert (HBi : In (mblk C') (mblk C :: map mblk (flat_map comats cs)) \/ next m <= mblk C') by (destruct HB as [HB|HB]; [left; left; symmetry; exact HB|right; exact HB]).
      assert (Y2 : kb (mblk C :: map mblk (flat_map comats cs)) m m2).
      { eapply kb_trans; [exact K1|exact K2|intros b [<-|[]]; left; reflexivity|]. intros b Hb. left. right. exact Hb. }
      assert (Y3 : kb (mblk C :: map mblk (flat_map comats cs)) m m3) by (eapply kb_trans; [exact Y2|exact K3|auto|intros b [<-|[]]; exact HBi]).
      eapply kb_trans; [exact Y3|exact K4|auto|intros b [<-|[]]; exact HBi].
Qed.
End P.
