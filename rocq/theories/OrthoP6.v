(** * Orthogonalisation of cluster bases: induction over the tree *)
From Coq Require Import Arith Lia List Bool Permutation Ring.
From Verif Require Import Fld Ord Prog Arr View Loop Line Spec Cluster Block Avector Amatrix AvectorP AmatrixP AmatrixP2 RkP Factor FactorSpec FactorP FactorP2 FactorP3 LrP
  Chol CholSpec CholP5 Qr QrSpec QrP QrP2 QrP3 QrP4 QrP7 QrP8 QrP10 Hmatrix HmSpec HmP Clusterbasis CbSpec CbP CbP2 Cbmgr CbmSpec CbmP CbmP2 CbmP3 Clusterop CopSpec OrthoP OrthoP2 OrthoP3 OrthoP4 OrthoP5.
Import ListNotations.

Section P.
Context {K : fops} {G : ofops} (L : field_laws K) (O : qops K) (H : qlaws O).
Notation RL := (fl_ring K L).
Local Notation cbx := (cbasis G).
Local Notation cox := (clusterop G).
Implicit Types (m : mem K) (cb s : cbasis G) (D : nat -> Prop) (Ls X : list mat) (F f e : nat -> nat -> K) (o : option cox) (l : list cbx) (bs : list (cbx * option cox)).
Notation up F := (tripart false false F).
Notation ex := (exact_zero O).

Definition o1of o bs : option cox := match o with Some co => Some (co_setsons co (somes (map snd bs))) | None => None end.
Definition oms o : list mat := match o with Some co => flat_map comats (co_son co) | None => [] end.
Definition ocm o : list mat := match o with Some co => [co_C co] | None => [] end.

Lemma omats_split o : omats o = ocm o ++ oms o. Proof. destruct o as [[? ? ? ? ?]|]; reflexivity. Qed.
Lemma somes_mats bs : flat_map comats (somes (map snd bs)) = flat_map (fun r => omats (snd r)) bs.
Proof. induction bs as [|[c [x|]] bs IH]; [reflexivity| |]; cbn [map snd somes flat_map omats app]; [|exact IH]. fold (somes (map snd bs)). rewrite IH. reflexivity. Qed.
Lemma somes_nth bs : (forall r, In r bs -> snd r <> None) -> forall i, nth_error (somes (map snd bs)) i = match nth_error bs i with Some r => snd r | None => None end.
Proof.
  induction bs as [|[c x] bs IH]; intros HA i; [destruct i; reflexivity|]. destruct x as [x|]; [|exfalso; apply (HA (c, None)); [left; reflexivity|reflexivity]].
  change (somes (map snd ((c, Some x) :: bs))) with (x :: somes (map snd bs)). destruct i as [|i]; [reflexivity|]. cbn [nth_error]. apply IH. intros r Hr. apply HA. right. exact Hr.
Qed.
Lemma somes_le bs : length (somes (map snd bs)) <= length bs.
Proof. induction bs as [|[a [x|]] bs IH]; [cbn; lia| |]; unfold somes in *; cbn [map snd flat_map app length] in *; lia. Qed.
Lemma rmats_perm bs : Permutation (flat_map rmats bs) (flat_map cbmats (map fst bs) ++ flat_map (fun r => omats (snd r)) bs).
Proof.
  induction bs as [|r bs IH]; [constructor|]. cbn [flat_map map]. unfold rmats at 1. etransitivity; [apply Permutation_app_head; exact IH|]. perm.
Qed.
Lemma mats0_perm l : Permutation (flat_map cbmats l) (flat_map cbmats0 l ++ map cb_E l).
Proof.
  induction l as [|s l IH]; [constructor|]. cbn [flat_map map]. rewrite cbmats_E. unfold cbmats0 at 1. etransitivity; [apply Permutation_app_head; exact IH|]. perm.
Qed.
Lemma sonsE_mats0 k l l' : sonsE k l l' -> flat_map cbmats0 l' = flat_map cbmats0 l.
Proof.
  unfold sonsE. induction 1 as [|s s' l l' (E1 & _) HF IH]; [reflexivity|]. cbn [flat_map]. rewrite IH. f_equal. rewrite E1. unfold cbmats0. destruct s. reflexivity.
Qed.
Lemma cofor_setE s E (c : cox) : cofor s c -> cofor (cb_setE s E) c.
Proof. intros Hc. destruct (setE_proj s E) as (_ & _ & P3 & _). destruct Hc as [s c H1 H2 H3 H4]. constructor; rewrite ?P3; assumption. Qed.
Lemma cbinit_setE m s E : cbinit m s -> cbinit m (cb_setE s E).
Proof.
  intros Hi a Ha. apply Hi. destruct s as [t k kt kb0 V E0 l Z]. cbn [cb_setE] in Ha. inversion Ha as [? ? ? ? ? ? ? ? Hin|? s ? Hs Hin|? s ? Hs Hin]; subst.
  - constructor. exact Hin.
  - eapply incb_E; [exact Hs|exact Hin].
  - eapply incb_son; [exact Hs|exact Hin].
Qed.
Lemma incb_inv cb a : incb cb a -> cb_son cb = [] \/ exists s, In s (cb_son cb) /\ (inm (cb_E s) a \/ incb s a).
Proof. intros Ha. destruct Ha as [t k kt kb0 V E Z a Ha|cb s a Hs Ha|cb s a Hs Ha]; [left; reflexivity|right; eauto|right; eauto]. Qed.
Lemma orth_proj E m m1 s s' o R : orth_of E m m1 s s' o R -> cb_t s' = cb_t s. Proof. intros HO. destruct HO. assumption. Qed.
Lemma orth_orth E m m1 s s' o R : orth_of E m m1 s s' o R -> orthonormal (cb_size s) (cb_k s') (cbmat m1 s'). Proof. intros HO. destruct HO. assumption. Qed.
Lemma orth_exact (E : Prop) m m1 s s' o R : orth_of E m m1 s s' o R -> E ->
  forall p q, p < cb_size s -> q < cb_k s -> cbmat m s p q = sum (cb_k s') (fun r => cbmat m1 s' p r * R r q)%F.
Proof. intros HO. destruct HO. assumption. Qed.

Lemma wp_ortho_node D m m1 t k0 kt kb0 V E l Z o bs Ls e (Q : cbx * option cox -> mem K -> Prop) :
  let cb := CB t k0 kt kb0 V E l Z in let cbs := CB t k0 kt kb0 V E (map fst bs) Z in let o1 := o1of o bs in
  l <> [] -> cbok cb -> mrows E = k0 -> mval m1 E e -> (forall co, o = Some co -> mrows (co_C co) = co_krow co /\ mcols (co_C co) = co_kcol co) ->
  Forall2 (sonrel O m m1 o) l bs -> lm D m1 (cbmats cbs ++ omats o1 ++ Ls) ->
  (forall cb' o' R m', ores O m m' cb e o cb' o' R -> lm D m' (cbmats cb' ++ omats o' ++ Ls) -> newb (cbmats cbs ++ omats o1) (cbmats cb' ++ omats o') m1 ->
     kb (map mblk (cbmats cbs ++ omats o1)) m1 m' -> Q (cb', o') m') ->
  wp TT TT (ortho_node O cb o bs) m1 Q.
Proof.
  intros cb cbs o1 Hne Hok ErE He Ho HF HL HQ. unfold ortho_node. cbv zeta. rewrite fold_k. cbn [plus]. fold (o1of o bs). fold o1. set (l1 := map fst bs) in *.
  change (cb_k cb) with k0. change (cb_setsons cb l1) with cbs. set (mm := nsum (length l1) (at_ cb_k l1)).
  assert (Hlen : length l1 = length l). { unfold l1. rewrite map_length. apply Forall2_nth in HF as (HF1 & _). lia. }
  (* the sons *)
  assert (Hson : forall i s, nth_error l i = Some s -> exists s1 oi Ri ooi, nth_error bs i = Some (s1, oi) /\ nth_error l1 i = Some s1 /\
     ores O m m1 s (mfun m (cb_E s)) ooi s1 oi Ri /\ (ooi = None <-> o = None)).
  { intros i s Hi. destruct (Forall2_nth_l _ _ _ _ _ HF Hi) as ([s1 oi] & Hb & Ri & ooi & HR & Hoo). exists s1, oi, Ri, ooi. split; [exact Hb|]. split; [unfold l1; rewrite nth_error_map, Hb; reflexivity|]. split; [exact HR|exact Hoo]. }
  assert (Hson' : forall s1, In s1 l1 -> exists s i oi Ri ooi, nth_error l i = Some s /\ nth_error bs i = Some (s1, oi) /\ nth_error l1 i = Some s1 /\
     ores O m m1 s (mfun m (cb_E s)) ooi s1 oi Ri /\ (ooi = None <-> o = None)).
  { intros s1 Hs1. apply In_nth_error in Hs1 as (i & Hi). destruct (nth_ex l i) as [s Hs]; [apply nth_in in Hi; lia|]. destruct (Hson i s Hs) as (s1' & oi & Ri & ooi & A1 & A2 & A3 & A4).
    assert (s1' = s1) by congruence. subst s1'. exists s, i, oi, Ri, ooi. auto 6. }
  assert (HinE1 : forall s1, In s1 l1 -> In (cb_E s1) (cbmats cbs ++ omats o1 ++ Ls)).
  { intros s1 Hs1. apply in_or_app. left. unfold cbs. cbn [cbmats]. right. right. apply in_flat_map. exists s1. split; [exact Hs1|apply in_E]. }
  (* stacked transfer matrices *)
  apply wp_bind. eapply wp_init_kb; [exact HL|]. intros Vh m2 EVh HL2 K2. pose proof (kb_next _ _ _ K2) as N2.
  assert (BVh : mblk Vh = next m1) by (rewrite EVh; reflexivity). assert (RVh : mrows Vh = mm) by (rewrite EVh; reflexivity). assert (CVh : mcols Vh = k0) by (rewrite EVh; reflexivity). clear EVh.
  apply wp_bind. set (fV := stack (map (fun s => (cb_k s, mfun m1 (cb_E s))) l1)).
  eapply (wp_fillV D m2 Vh l1 k0 (cbmats cbs ++ omats o1 ++ Ls) (fun s => mfun m1 (cb_E s))); [exact HL2| |exact RVh|exact CVh|].
  { intros s1 Hs1. destruct (Hson' s1 Hs1) as (s & i & oi & Ri & ooi & A1 & A2 & A3 & (R1 & R2 & R3 & R4 & R5 & R6 & R7) & A5). split; [apply HinE1, Hs1|]. split; [exact R4|]. split.
    - rewrite R5. apply (cbok_son cb s Hok). eapply nth_error_In; exact A1.
    - eapply mval_kb; [|exact K2|eapply kb_blk; [exact HL|apply HinE1, Hs1]|intros []]. intros r q Hr Hq. rewrite (R6 r q Hr Hq). f_equal. symmetry. apply (mfun_mval _ _ _ R6); assumption. }
  fold fV. intros m3 HVh3 HL3 K3. pose proof (kb_next _ _ _ K3) as N3. rewrite RVh. apply wp_bind, wp_passert; [apply Nat.eqb_refl|].
  assert (K13 : kb [] m1 m3) by (eapply kb_trans; [exact K2|exact K3|auto|]; intros b [<-|[]]; right; lia).
  assert (BE : mblk E < next m1) by (eapply kb_blk; [exact HL|unfold cbs; cbn; auto]).
  assert (He3 : mval m3 E e) by (eapply mval_kb; [exact He|exact K13|exact BE|intros []]).
  (* factorisation *)
  apply wp_bind. eapply (wp_ortho_factor L O H D m3 t k0 kt kb0 V E l1 Z Vh o1 Ls fV e); [exact HL3|exact HVh3|exact CVh|exact ErE|exact He3| |].
  { intros co1 E1. unfold o1, o1of in E1. destruct o as [co|]; [|discriminate]. injection E1 as <-. destruct (Ho co eq_refl) as [H1 H2]. destruct co. cbn in *. auto. }
  rewrite RVh. set (k := Nat.min mm k0). intros tau F tv V' E' l' o' m4. cbv zeta. intros Dt Bt HFc HVh4 Ht4 _ XV XS X4 X5 HE4 Hor HL4 HN4 K4.
  assert (Hne1 : l1 <> []) by (intros EE; rewrite EE in Hlen; destruct l; [congruence|discriminate]). specialize (XV Hne1). subst V'. pose proof (kb_next _ _ _ K4) as N4.
  assert (Hlen' : length l' = length l1) by (apply Forall2_nth in XS as (XS1 & _); exact XS1).
  set (cbn_ := CB t k kt kb0 V E' l' Z) in *.
  set (cb' := CB t k (k + nsum (length l') (at_ cb_ktree l')) (k + list_max (map cb_kbranch l')) V E' l' Z).
  assert (Eup : update_clusterbasis cbn_ = cb') by (unfold cbn_; rewrite update_eq; destruct l'; [destruct l1; [congruence|discriminate]|reflexivity]). rewrite Eup.
  change (cb_k cb') with k. change (cb_son cb') with l'. change (cbmats cbn_) with (cbmats cb') in HL4, HN4.
  assert (Hkl' : at_ cb_k l' = at_ cb_k l1).
  { unfold at_. f_equal. replace (map cb_k l') with (map cb_k l1); [reflexivity|]. apply at_Forall2. apply Forall2_nth in XS as (Y1 & Y2). apply Forall2_nth. split; [exact Y1|].
    intros i a b Ha Hb. destruct (Y2 i a b Ha Hb) as (E1 & _). rewrite E1. destruct a. reflexivity. }
  assert (Emm : nsum (length l') (at_ cb_k l') = mm) by (rewrite Hkl', Hlen'; reflexivity).
  (* orthogonal factor *)
  apply wp_bind. eapply wp_init_kb; [exact HL4|]. intros Qh m5 EQh HL5 K5. pose proof (kb_next _ _ _ K5) as N5.
  assert (BQh : mblk Qh = next m4) by (rewrite EQh; reflexivity). assert (RQh : mrows Qh = mm) by (rewrite EQh; reflexivity). assert (CQh : mcols Qh = k) by (rewrite EQh; reflexivity). clear EQh.
  assert (Btau4 : vblk tau < next m4) by (apply (kb_blk D m4 _ (vm tau) HL4); left; reflexivity).
  assert (BVh4 : mblk Vh < next m4) by (apply (kb_blk D m4 _ Vh HL4); right; left; reflexivity).
  apply wp_bind. eapply (wp_qrexpand_lm L D m5 tau Vh Qh (Qh :: cbmats cb' ++ omats o' ++ Ls) F tv k);
    [eapply lm_perm; [|exact HL5]; perm|left; reflexivity|eapply mval_kb; [exact HVh4|exact K5|exact BVh4|intros []]|eapply tval_kb; [exact Ht4|exact K5|exact Btau4|intros []]|exact Dt|rewrite RVh, CVh; reflexivity|lia|exact CQh|].
  rewrite RVh. set (qm := qmat mm F tv k). intros m6 HQ6 HL6 K6. pose proof (kb_next _ _ _ K6) as N6.
  set (rest := vm tau :: Vh :: V :: E' :: omats o' ++ Ls).
  apply wp_bind. eapply (wp_readQ D m6 Qh l' k rest qm); [eapply lm_perm; [|exact HL6]; unfold rest, cb'; cbn [cbmats]; perm|exact HQ6|rewrite RQh, Emm; reflexivity|exact CQh| |].
  { intros s' Hs'. destruct (Forall2_in_r _ _ _ _ XS Hs') as (s1 & Hs1 & E1 & E2 & E3). split; [|exact E3]. rewrite E2, E1. destruct s1. reflexivity. }
  intros m7 HE7 HL7 K7. pose proof (kb_next _ _ _ K7) as N7. rewrite RQh. apply wp_bind, wp_passert; [apply Nat.eqb_refl|].
  apply wp_bind. eapply wp_uninit_kb; [exact HL7|]. intros m8 HL8 K8. pose proof (kb_next _ _ _ K8) as N8.
  apply wp_bind. eapply (wp_uninitv_lm D m8 tau (Vh :: cbmats cb' ++ omats o' ++ Ls)); [eapply lm_perm; [|exact HL8]; unfold rest, cb'; cbn [cbmats]; perm|]. intros m9 HL9 K9. pose proof (kb_next _ _ _ K9) as N9.
  apply wp_bind. eapply wp_uninit_kb; [exact HL9|]. intros m' HL' K10. pose proof (kb_next _ _ _ K10) as N10. cbn [wp].
  (* the operator *)
  assert (Hoo : oms o' = oms o1). { unfold orel in Hor. destruct o1 as [co1|], o' as [co'|]; try (exfalso; exact Hor); [|reflexivity]. destruct Hor as (C' & -> & _). reflexivity. }
  set (X0 := flat_map cbmats0 l1 ++ oms o1).
  assert (HX0' : flat_map cbmats0 l' = flat_map cbmats0 l1) by (eapply sonsE_mats0; exact XS).
  (* unchanged parts *)
  assert (S13 : same X0 m1 m3).
  { eapply same_kb; [exact K13|]. intros A HA. split; [|intros []]. eapply kb_blk; [exact HL|]. unfold X0 in HA. apply in_app_or in HA as [HA|HA].
    - apply in_or_app. left. unfold cbs. cbn [cbmats]. right. right. apply in_flat_map in HA as (s1 & Hs1 & HA). apply in_flat_map. exists s1. split; [exact Hs1|apply mats0_in, HA].
    - apply in_or_app. right. apply in_or_app. left. rewrite omats_split. apply in_or_app. right. exact HA. }
  assert (S34 : same X0 m3 m4).
  { eapply (same_lm D X0 (Vh :: E :: map cb_E l1 ++ ocm o1) (V :: Ls)); [eapply lm_perm; [|exact HL3]|exact K4|].
    - unfold X0, cbs. cbn [cbmats]. rewrite omats_split. etransitivity; [apply perm_skip; apply Permutation_app_tail; apply perm_skip; apply perm_skip; apply mats0_perm|]. perm.
    - intros b [<-|Hb]; [left; reflexivity|]. cbn [map]. right. apply in_app_or in Hb as [Hb|Hb].
      + unfold rkblks in Hb. destruct l1 as [|a l1']; [destruct Hne1; reflexivity|]. destruct Hb as [<-|Hb]; [left; reflexivity|]. right. rewrite map_app. apply in_or_app. left. rewrite map_map. exact Hb.
      + right. rewrite map_app. apply in_or_app. right. unfold cblk in Hb. unfold ocm. destruct o1; exact Hb. }
  set (Y0 := E' :: ocm o').
  assert (P0 : Permutation (cbmats cb' ++ omats o' ++ Ls) (X0 ++ Y0 ++ map cb_E l' ++ V :: Ls)).
  { unfold X0, Y0, cb'. cbn [cbmats]. rewrite (omats_split o'), Hoo. etransitivity; [apply Permutation_app_tail; apply perm_skip; apply perm_skip; apply mats0_perm|]. rewrite HX0'. perm. }
  assert (S45 : same (X0 ++ Y0) m4 m5).
  { eapply same_kb; [exact K5|]. intros A HA. split; [|intros []]. eapply kb_blk; [exact HL4|]. right. right. eapply Permutation_in; [symmetry; exact P0|]. rewrite app_assoc. apply in_or_app. left. exact HA. }
  assert (S56 : same (X0 ++ Y0) m5 m6).
  { eapply (same_lm D (X0 ++ Y0) [Qh] (vm tau :: Vh :: map cb_E l' ++ V :: Ls)); [eapply lm_perm; [|exact HL5]|exact K6|apply incl_refl].
    etransitivity; [apply perm_skip, perm_skip, perm_skip; exact P0|]. perm. }
  assert (S67 : same (X0 ++ Y0) m6 m7).
  { eapply (same_lm D (X0 ++ Y0) (map cb_E l') (Qh :: vm tau :: Vh :: V :: Ls)); [eapply lm_perm; [|exact HL6]|exact K7|rewrite map_map; apply incl_refl].
    etransitivity; [apply perm_skip, perm_skip, perm_skip; exact P0|]. perm. }
  assert (P1 : Permutation (cbmats cb' ++ omats o' ++ Ls) ((X0 ++ Y0 ++ map cb_E l') ++ V :: Ls)) by (etransitivity; [exact P0|]; perm).
  assert (S78 : same (X0 ++ Y0 ++ map cb_E l') m7 m8).
  { eapply (same_lm D (X0 ++ Y0 ++ map cb_E l') [Qh] (vm tau :: Vh :: V :: Ls)); [eapply lm_perm; [|exact HL7]|exact K8|apply incl_refl].
    transitivity (Qh :: vm tau :: Vh :: cbmats cb' ++ omats o' ++ Ls); [unfold rest, cb'; cbn [cbmats]; perm|]. etransitivity; [apply perm_skip, perm_skip, perm_skip; exact P1|]. perm. }
  assert (S89 : same (X0 ++ Y0 ++ map cb_E l') m8 m9).
  { eapply (same_lm D (X0 ++ Y0 ++ map cb_E l') [vm tau] (Vh :: V :: Ls)); [eapply lm_perm; [|exact HL8]|exact K9|apply incl_refl].
    transitivity (vm tau :: Vh :: cbmats cb' ++ omats o' ++ Ls); [unfold rest, cb'; cbn [cbmats]; perm|]. etransitivity; [apply perm_skip, perm_skip; exact P1|]. perm. }
  assert (S9 : same (X0 ++ Y0 ++ map cb_E l') m9 m').
  { eapply (same_lm D (X0 ++ Y0 ++ map cb_E l') [Vh] (V :: Ls)); [eapply lm_perm; [|exact HL9]|exact K10|apply incl_refl].
    etransitivity; [apply perm_skip; exact P1|]. perm. }
  assert (S7 : same (X0 ++ Y0 ++ map cb_E l') m7 m') by (eapply keeps_trans; [exact S78|eapply keeps_trans; [exact S89|exact S9]]).
  assert (S4 : same (X0 ++ Y0) m4 m').
  { eapply keeps_trans; [exact S45|eapply keeps_trans; [exact S56|eapply keeps_trans; [exact S67|eapply same_sub; [exact S7|]]]]. intros A HA. rewrite app_assoc. apply in_or_app. left. exact HA. }
  assert (S1 : same X0 m1 m').
  { eapply keeps_trans; [exact S13|eapply keeps_trans; [exact S34|eapply same_sub; [exact S4|]]]. intros A HA. apply in_or_app. left. exact HA. }
  (* values *)
  assert (HE' : mval m' E' (mmul k0 (up F) e)) by (eapply same_mval; [exact HE4|exact S4|apply in_or_app; right; left; reflexivity]).
  assert (HEs : forall i s', nth_error l' i = Some s' -> mval m' (cb_E s') (fun r q => qm (nsum i (at_ cb_k l') + r) q)).
  { intros i s' Hi. eapply same_mval; [apply HE7, Hi|exact S7|]. apply in_or_app. right. apply in_or_app. right. apply in_map. eapply nth_error_In; exact Hi. }
  assert (Hor' : orel m' k k0 F o1 o').
  { unfold orel in *. destruct o1 as [co1|], o' as [co'|]; try exact Hor. destruct Hor as (C' & -> & C1 & C2 & C3). exists C'. split; [reflexivity|]. split; [exact C1|]. split; [exact C2|].
    eapply same_mval; [exact C3|exact S4|]. apply in_or_app. right. right. left. reflexivity. }
  (* the sons in the final state *)
  assert (Hfin : forall i s s', nth_error l i = Some s -> nth_error l' i = Some s' -> exists Ri,
     orth_of ex m m' s s' (oson o' i) Ri /\ cbok s' /\ cbinit m' s' /\ mrows (cb_E s') = cb_k s' /\ mcols (cb_E s') = k /\
     (forall r q, r < cb_k s' -> q < k0 -> fV (nsum i (at_ cb_k l') + r)%nat q = sum (cb_k s) (fun x => Ri r x * mfun m (cb_E s) x q)%F) /\
     (forall co', o' = Some co' -> exists c, nth_error (co_son co') i = Some c /\ cofor s' c)).
  { intros i s s' Hi Hi'. destruct (Hson i s Hi) as (s1 & oi & Ri & ooi & A1 & A2 & (R1 & R2 & R3 & R4 & R5 & R6 & R7) & A4).
    destruct (Forall2_nth_l _ _ _ _ _ XS A2) as (s'' & Hi'' & E1 & E2 & E3). assert (s'' = s') by congruence. subst s''. exists Ri.
    assert (I0 : incl (cbmats0 s1) X0). { intros A HA. unfold X0. apply in_or_app. left. apply in_flat_map. exists s1. split; [eapply nth_error_In; exact A2|exact HA]. }
    assert (Hoi : oi = oson o' i).
    { unfold orel, o1, o1of in Hor. destruct o as [co|].
      - destruct o' as [co'|]; [|exfalso; exact Hor]. destruct Hor as (C' & -> & _). destruct co as [ct cr cc cC cl]. cbn [co_setsons co_son oson co_t]. rewrite somes_nth; [rewrite A1; reflexivity|].
        intros [a oa] Hr HN. cbn in HN. subst oa. destruct (Forall2_in_r _ _ _ _ HF Hr) as (a0 & _ & Ra & ooa & (_ & _ & _ & _ & _ & _ & R7a) & HX). cbn in R7a. destruct ooa; [exact R7a|]. destruct HX as [HX _]. specialize (HX eq_refl). discriminate.
      - destruct o' as [co'|]; [exfalso; exact Hor|]. cbn. destruct A4 as [_ A4]. rewrite (A4 eq_refl) in R7. destruct oi; [exfalso; exact R7|reflexivity]. }
    assert (I1 : incl (cbmats0 s1 ++ omats oi) X0).
    { intros A HA. apply in_app_or in HA as [HA|HA]; [apply I0, HA|]. unfold X0. apply in_or_app. right. rewrite <- Hoo. rewrite Hoi in HA. destruct o' as [co'|]; [|exact HA]. cbn [oms]. cbn [oson] in HA.
      destruct (nth_error (co_son co') i) as [c|] eqn:Ec; [|destruct HA]. apply in_flat_map. exists c. split; [eapply nth_error_In; exact Ec|exact HA]. }
    split; [|split; [|split; [|split; [|split; [|split]]]]].
    - rewrite E1, <- Hoi. apply orth_setE. eapply orth_same; [exact R1|exact S1|exact I1].
    - rewrite E1. apply cbok_setE, R2.
    - rewrite E1. apply cbinit_setE. eapply same_init; [exact R3|exact S1|exact I0].
    - rewrite E2, E1. destruct s1; reflexivity.
    - exact E3.
    - intros r q Hr Hq. rewrite Hkl'. unfold fV. assert (Hk1 : cb_k s' = cb_k s1) by (rewrite E1; destruct s1; reflexivity). rewrite Hk1 in Hr.
      rewrite (stack_at l1 cb_k (fun s => mfun m1 (cb_E s)) i s1 r q A2 Hr). rewrite (mfun_mval _ _ _ R6); [reflexivity|lia|]. rewrite R5.
      destruct (cbok_son cb s Hok) as (_ & _ & HX); [eapply nth_error_In; exact Hi|]. rewrite HX. exact Hq.
    - intros co' E4. subst o'. cbn [oson] in Hoi. destruct o as [co|]; [|exfalso; exact Hor]. destruct ooi as [oo|]; [|destruct A4 as [A4 _]; specialize (A4 eq_refl); discriminate].
      destruct oi as [c|]; [|exfalso; exact R7]. exists c. split; [symmetry; exact Hoi|]. rewrite E1. apply cofor_setE. apply R7. }
  assert (Hfin' : forall i s', nth_error l' i = Some s' -> exists s, nth_error l i = Some s) by (intros i s' Hi; apply nth_ex; apply nth_in in Hi; lia).
  assert (Hsz : at_ cb_size l' = at_ cb_size l).
  { unfold at_. replace (map cb_size l') with (map cb_size l); [reflexivity|]. apply at_Forall2. apply Forall2_nth. split; [lia|]. intros i a b Ha Hb. destruct (Hfin i a b Ha Hb) as (Ri & HO & _).
    unfold cb_size. rewrite (orth_proj _ _ _ _ _ _ _ HO). reflexivity. }
  assert (Hcsz : csz t = nsum (length l) (at_ cb_size l)) by (apply (cbok_size cb Hok); exact Hne).
  assert (Hcsz' : csz t = nsum (length l') (at_ cb_size l')) by (rewrite Hsz, Hlen', Hlen; exact Hcsz).
  assert (Hok' : cbok cb').
  { unfold cb'. apply cbok_node; auto.
    - destruct l'; [destruct l1; [congruence|discriminate]|discriminate].
    - intros s' Hs'. apply In_nth_error in Hs' as (i & Hi). destruct (Hfin' i s' Hi) as (s & Hs). destruct (Hfin i s s' Hs Hi) as (Ri & _ & B1 & _ & B2 & B3 & _). auto.
    - intros i s' Hi. destruct (Hfin' i s' Hi) as (s & Hs). destruct (Hfin i s s' Hs Hi) as (Ri & HO & _). rewrite (orth_proj _ _ _ _ _ _ _ HO). inversion Hok; subst; [congruence|]. auto. }
  apply (HQ cb' o' (up F) m').
  - split; [|split; [exact Hok'|split; [|split; [exact X4|split; [exact X5|split; [exact HE'|]]]]]].
    + constructor.
      * reflexivity.
      * cbn [cb' cb cb_son]. lia.
      * unfold cb_mm. change (cb_son cb') with l'. change (cb_k cb') with k. change (cb_k cb) with k0. destruct l' as [|a l'']; [destruct l1; [congruence|discriminate]|]. rewrite Emm. reflexivity.
      * change (cb_size cb) with (cb_size cb'). change (cb_k cb') with k. apply (orth_node L m' cb' k qm); [exact Hcsz'| |].
        -- intros i s' Hi. change (cb_son cb') with l' in Hi |- *. destruct (Hfin' i s' Hi) as (s & Hs). destruct (Hfin i s s' Hs Hi) as (Ri & HO & B1 & B2 & B3 & B4 & B5 & B6). split.
           ++ unfold cb_size. rewrite (orth_proj _ _ _ _ _ _ _ HO). apply (orth_orth _ _ _ _ _ _ _ HO).
           ++ intros r q Hr Hq. apply (mfun_mval _ _ _ (HEs i s' Hi)); lia.
        -- change (cb_son cb') with l'. rewrite Emm. apply (qrfac_orth O _ _ _ _ _ HFc).
      * intros HX. apply (prod_node L m m' cb cb' fV qm (up F) k).
        -- exact Hcsz.
        -- change (length l' = length l). lia.
        -- intros i s s' Hi Hi'. change (cb_son cb) with l in Hi. change (cb_son cb') with l' in Hi' |- *. destruct (Hfin i s s' Hi Hi') as (Ri & HO & B1 & B2 & B3 & B4 & B5 & B6).
           split; [unfold cb_size; rewrite (orth_proj _ _ _ _ _ _ _ HO); reflexivity|]. split.
           ++ exists Ri. split; [apply (orth_exact _ _ _ _ _ _ _ HO HX)|exact B5].
           ++ intros r q Hr Hq. apply (mfun_mval _ _ _ (HEs i s' Hi')); lia.
        -- change (cb_son cb') with l'. rewrite Emm. change (cb_k cb) with k0. intros r q Hr Hq. apply (qrfac_thin L O _ _ _ _ _ HFc HX r q Hr Hq).
      * intros co' E1. rewrite E1 in Hor'. unfold o1, o1of in Hor'. destruct o as [co|]; [|destruct Hor']. destruct Hor' as (C' & -> & C1 & C2 & C3). cbn. auto.
      * intros i s s' Hi Hi'. destruct (Hfin i s s' Hi Hi') as (Ri & HO & _). exists Ri. exact HO.
    + intros a Ha. destruct (incb_inv _ _ Ha) as [Hnil|(s & Hs & [Hin|Hin])].
      * exfalso. change (l' = []) in Hnil. rewrite Hnil in Hlen'. destruct l1; [congruence|discriminate].
      * change (cb_son cb') with l' in Hs. apply In_nth_error in Hs as (i & Hi). destruct Hin as (r & q & Hr & Hq & ->). eexists. apply (HEs i s Hi); assumption.
      * change (cb_son cb') with l' in Hs. apply In_nth_error in Hs as (i & Hi). destruct (Hfin' i s Hi) as (s0 & Hs0). destruct (Hfin i s0 s Hs0 Hi) as (Ri & _ & _ & B2 & _). apply B2, Hin.
    + pose proof Hfin as HfinO. unfold oform. unfold orel, o1, o1of in Hor'. destruct o as [co|], o' as [co'|]; try exact Hor'. destruct Hor' as (C' & EC' & C1 & C2 & C3).
      assert (Hls : length (somes (map snd bs)) = length l').
      { destruct (Nat.lt_trichotomy (length (somes (map snd bs))) (length l')) as [Hlt|[Heq|Hgt]]; [exfalso|exact Heq|exfalso].
        - destruct (nth_ex l' _ Hlt) as [s' Hs']. destruct (Hfin' _ s' Hs') as (s & Hs). destruct (Hfin _ s s' Hs Hs') as (Ri & _ & _ & _ & _ & _ & _ & B). destruct (B co' eq_refl) as (c & Hc & _).
          rewrite EC' in Hc. destruct co. cbn in Hc. apply nth_in in Hc. lia.
        - pose proof (somes_le bs) as HX.
          unfold l1 in Hlen'. rewrite map_length in Hlen'. lia. }
      split; [|rewrite EC'; destruct co; reflexivity]. constructor.
      * rewrite EC'. exact C1.
      * rewrite EC'. exact C2.
      * rewrite EC'. destruct co. exact Hls.
      * intros i s' c Hi Hc. change (cb_son cb') with l' in Hi. destruct (Hfin' i s' Hi) as (s & Hs). destruct (Hfin i s s' Hs Hi) as (Ri & _ & _ & _ & _ & _ & _ & B). destruct (B co' eq_refl) as (c' & Hc' & Hf). assert (c' = c) by congruence. subst c'. exact Hf.
  - exact HL'.
  - intros b Hb. apply HN4 in Hb as [Hb|Hb]; [left; exact Hb|right; lia].
  - set (B0 := map mblk (cbmats cbs ++ omats o1)).
    assert (Y4 : kb B0 m1 m4).
    { eapply kb_trans; [exact K13|exact K4|intros b []|]. intros b [<-|Hb]; [right; lia|]. left. unfold B0. rewrite map_app. apply in_app_or in Hb as [Hb|Hb]; apply in_or_app; [left; apply rkblks_in, Hb|right; apply cblk_in, Hb]. }
    assert (Y5 : kb B0 m1 m5) by (eapply kb_trans; [exact Y4|exact K5|auto|intros b []]).
    assert (Y6 : kb B0 m1 m6) by (eapply kb_trans; [exact Y5|exact K6|auto|intros b [<-|[]]; right; lia]).
    assert (Y7 : kb B0 m1 m7).
    { eapply kb_trans; [exact Y6|exact K7|auto|]. intros b Hb. assert (HB : In b (map mblk (cbmats cb' ++ omats o'))).
      { apply in_map_iff in Hb as (s & <- & Hs). apply in_map. apply in_or_app. left. unfold cb'. cbn [cbmats]. right. right. apply in_flat_map. exists s. split; [exact Hs|apply in_E]. }
      apply HN4 in HB as [HB|HB]; [left; exact HB|right; lia]. }
    assert (Y8 : kb B0 m1 m8) by (eapply kb_trans; [exact Y7|exact K8|auto|intros b [<-|[]]; right; lia]).
    assert (Y9 : kb B0 m1 m9) by (eapply kb_trans; [exact Y8|exact K9|auto|intros b [<-|[]]; right; lia]).
    eapply kb_trans; [exact Y9|exact K10|auto|intros b [<-|[]]; right; lia].
Qed.

Theorem wp_ortho cb : ortho_ok O cb.
Proof.
  induction cb as [cb IH] using cb_rect'. destruct cb as [t k0 kt kb0 V E l Z]. destruct l as [|s0 l0]; [apply (ortho_leaf L O H)|].
  intros D o Ls m e Q Hok ErE Hi He Ho HL HQ. rewrite ortho_eq_node. set (l := s0 :: l0) in *. set (cb := CB t k0 kt kb0 V E l Z) in *. cbn [cb_E cb_k] in ErE, He. cbn [cb_son] in IH.
  assert (HX : (match o with Some co => passert (length l =? length (co_son co)) | None => Ret tt end : prog K unit) = Ret tt).
  { destruct o as [co|]; [|reflexivity]. destruct (cofor_inv _ _ (Ho co eq_refl)) as (_ & _ & H3 & _). change (cb_son cb) with l in H3. rewrite H3, Nat.eqb_refl. reflexivity. }
  rewrite HX. cbn [bind]. clear HX. apply wp_bind. set (Lr := V :: E :: ocm o ++ Ls).
  assert (EO0 : flat_map comats (orest o 0) = oms o) by (destruct o; reflexivity).
  change (wp TT TT (ortho_sons O o (length (@nil cbx)) l) m (fun a m' => wp TT TT (ortho_node O cb o a) m' Q)).
  eapply (wp_osons O D m o Lr l) with (bs := []); [exact IH| | |reflexivity|constructor|apply keeps_refl| | |apply kb_refl|].
  - intros s Hs. destruct (cbok_son cb s Hok Hs) as (A1 & A2 & A3). split; [exact A1|]. split; [exact A2|]. split; [eapply cbinit_son; [exact Hi|exact Hs]|eapply cbinit_E; [exact Hi|exact Hs]].
  - intros co E1. destruct (cofor_inv _ _ (Ho co E1)) as (_ & _ & H3 & H4). split; [exact H3|exact H4].
  - eapply lm_perm; [|exact HL]. change (length (@nil cbx)) with 0. rewrite EO0, omats_split. unfold Lr, cb. cbn [cbmats]. perm.
  - intros b [].
  - cbn [app]. rewrite EO0. intros bs m1 HF HL1 HN1 K1. pose proof (kb_next _ _ _ K1) as N1.
    set (cbs := CB t k0 kt kb0 V E (map fst bs) Z). set (o1 := o1of o bs).
    assert (Hnone : o = None -> flat_map (fun r => omats (snd r)) bs = []).
    { intros E1. assert (HA : forall r, In r bs -> omats (snd r) = []). { intros r Hr. destruct (Forall2_in_r _ _ _ _ HF Hr) as (a0 & _ & Ra & ooa & (_ & _ & _ & _ & _ & _ & R7a) & HX). rewrite (proj2 HX E1) in R7a. destruct (snd r); [exfalso; exact R7a|reflexivity]. }
      clear - HA. induction bs as [|r bs IHb]; [reflexivity|]. cbn [flat_map]. rewrite (HA r (or_introl eq_refl)), IHb; [reflexivity|]. intros r' Hr'. apply HA. right. exact Hr'. }
    assert (EO1 : omats o1 = ocm o ++ flat_map (fun r => omats (snd r)) bs).
    { unfold o1, o1of. destruct o as [co|]; [|rewrite Hnone; reflexivity]. destruct co. cbn. rewrite somes_mats. reflexivity. }
    assert (HL1' : lm D m1 (cbmats cbs ++ omats o1 ++ Ls)).
    { eapply lm_perm; [|exact HL1]. unfold Lr, cbs. cbn [cbmats]. rewrite EO1. etransitivity; [apply Permutation_app_tail, rmats_perm|]. perm. }
    assert (BE : mblk E < next m) by (eapply kb_blk; [exact HL|unfold cb; cbn; auto]).
    assert (He1 : mval m1 E e).
    { eapply mval_kb; [exact He|exact K1|exact BE|]. intros Hb. eapply (lm_apart D m [E] (flat_map cbmats l ++ oms o) (V :: ocm o ++ Ls) (mblk E)); [|left; reflexivity|exact Hb].
      eapply lm_perm; [|exact HL]. rewrite omats_split. unfold cb. cbn [cbmats]. perm. }
    assert (NB : forall b, In b (map mblk (cbmats cbs ++ omats o1)) -> In b (map mblk (cbmats cb ++ omats o)) \/ next m <= b).
    { intros b Hb. rewrite EO1 in Hb. assert (HB : In b (map mblk (V :: E :: ocm o)) \/ In b (map mblk (flat_map rmats bs))).
      { apply in_map_iff in Hb as (A & <- & HA). apply in_app_or in HA as [HA|HA].
        - unfold cbs in HA. cbn [cbmats] in HA. destruct HA as [<-|[<-|HA]]; [left; left; reflexivity|left; right; left; reflexivity|].
          right. apply in_map. eapply Permutation_in; [symmetry; apply rmats_perm|]. apply in_or_app. left. exact HA.
        - apply in_app_or in HA as [HA|HA]; [left; right; right; apply in_map, HA|]. right. apply in_map. eapply Permutation_in; [symmetry; apply rmats_perm|]. apply in_or_app. right. exact HA. }
      rewrite omats_split. destruct HB as [HB|HB].
      - left. unfold cb. cbn [cbmats]. rewrite !map_app. cbn [map]. destruct HB as [<-|[<-|HB]]; [left; reflexivity|right; left; reflexivity|]. apply in_or_app. right. apply in_or_app. left. exact HB.
      - apply HN1 in HB as [HB|HB]; [left|right; exact HB]. unfold cb. cbn [cbmats]. rewrite !map_app in *. cbn [map]. apply in_app_or in HB as [HB|HB]; [apply in_or_app; left; right; right; exact HB|]. apply in_or_app. right. apply in_or_app. right. exact HB. }
    eapply (wp_ortho_node D m m1 t k0 kt kb0 V E l Z o bs Ls e); [discriminate|exact Hok|exact ErE|exact He1| |exact HF|exact HL1'|].
    + intros co E1. destruct (cofor_inv _ _ (Ho co E1)) as (H1 & H2 & _). auto.
    + fold cbs. fold o1. intros cb' o' R m' HR HL' HN' K'. eapply HQ; [exact HR|exact HL'| |].
      * intros b Hb. apply HN' in Hb as [Hb|Hb]; [apply NB, Hb|right; lia].
      * eapply kb_trans; [exact K1|exact K'| |exact NB]. intros b Hb. rewrite omats_split. unfold cb. cbn [cbmats]. rewrite !map_app in *. cbn [map]. apply in_app_or in Hb as [Hb|Hb]; [apply in_or_app; left; right; right; exact Hb|]. apply in_or_app. right. apply in_or_app. right. exact Hb.
Qed.
End P.
