(** * Orthogonalisation of cluster bases: the step for one cluster *)
From Coq Require Import Arith Lia List Bool Permutation Ring.
From Verif Require Import Fld Ord Prog Arr View Loop Line Spec Cluster Block Avector Amatrix AvectorP AmatrixP AmatrixP2 RkP Factor FactorSpec FactorP FactorP2 FactorP3 LrP
  Chol CholSpec Qr QrSpec QrP QrP2 QrP3 QrP4 QrP7 QrP8 QrP10 Hmatrix HmSpec HmP Clusterbasis CbSpec CbP CbP2 Cbmgr CbmSpec CbmP CbmP2 Clusterop CopSpec OrthoP.
Import ListNotations.

Section P.
Context {K : fops} {G : ofops} (L : field_laws K) (O : qops K) (H : qlaws O).
Notation RL := (fl_ring K L).
Add Ring KringO2 : (rl_ring K (fl_ring K L)).
Implicit Types (m : mem K) (cb s : cbasis G) (D : nat -> Prop) (Ls : list mat) (F f e : nat -> nat -> K).
Notation up F := (tripart false false F).

Lemma tval_kb bs m m' tau r t : tval m tau r t -> kb bs m m' -> vblk tau < next m -> ~ In (vblk tau) bs -> tval m' tau r t.
Proof. intros Hv Hk Hb Hn i Hi. rewrite (kb_get bs m m'); [apply Hv; assumption|exact Hk|exact Hb|exact Hn]. Qed.
Lemma rkblks_in cb b : In b (rkblks cb) -> In b (map mblk (cbmats cb)).
Proof.
  destruct cb as [t k kt kb0 V E l Z]. destruct l as [|s0 l]; [cbn; tauto|]. unfold rkblks. intros [<-|Hb]; [right; left; reflexivity|].
  apply in_map_iff in Hb as (s & <- & Hs). cbn [cbmats map]. right. right. apply in_map_iff. exists (cb_E s). split; [reflexivity|].
  apply in_flat_map. exists s. split; [exact Hs|]. rewrite cbmats_E. right. left. reflexivity.
Qed.
Definition cblk (o : option (clusterop G)) : list nat := match o with Some co => [mblk (co_C co)] | None => [] end.
Lemma cblk_in o b : In b (cblk o) -> In b (map mblk (omats o)).
Proof. destruct o as [[t r c C l]|]; [|intros []]. intros [<-|[]]. left. reflexivity. Qed.
(** What happens to the operator: its matrix becomes the triangular factor. *)
Definition orel m' k k0 F (o o' : option (clusterop G)) : Prop :=
  match o, o' with
  | None, None => True
  | Some co, Some co' => exists C', co' = CO (co_t co) k k0 C' (co_son co) /\ mrows C' = k /\ mcols C' = k0 /\ mval m' C' (up F)
  | _, _ => False
  end.

Lemma wp_ortho_factor D m t k0 kt kb0 V E l Z Vh (o : option (clusterop G)) Ls f e (Q : vec * cbasis G * option (clusterop G) -> mem K -> Prop) :
  let cb := CB t k0 kt kb0 V E l Z in let k := Nat.min (mrows Vh) k0 in
  lm D m (Vh :: cbmats cb ++ omats o ++ Ls) -> mval m Vh f -> mcols Vh = k0 -> mrows E = k0 -> mval m E e ->
  (forall co, o = Some co -> mrows (co_C co) = co_krow co /\ mcols (co_C co) = co_kcol co) ->
  (forall tau F tv V' E' l' o' m', let cb' := CB t k kt kb0 V' E' l' Z in
     vdim tau = k -> next m <= vblk tau -> qrfac O (mrows Vh) k0 f F tv -> mval m' Vh F -> tval m' tau k tv ->
     (l = [] -> mrows V' = csz t /\ mcols V' = k) -> (l <> [] -> V' = V) -> sonsE k l l' -> mrows E' = k -> mcols E' = mcols E ->
     mval m' E' (mmul k0 (up F) e) -> orel m' k k0 F o o' ->
     lm D m' (vm tau :: Vh :: cbmats cb' ++ omats o' ++ Ls) -> newb (cbmats cb ++ omats o) (cbmats cb' ++ omats o') m ->
     kb (mblk Vh :: rkblks cb ++ cblk o) m m' -> Q (tau, update_clusterbasis cb', o') m') ->
  wp TT TT (ortho_factor O cb Vh o) m Q.
Proof.
  intros cb k Hl Hf Ec Er He Ho HQ. unfold ortho_factor. change (cb_k cb) with k0. change (cb_E cb) with E. fold k. cbv zeta.
  pose proof (lm_nin _ _ _ _ Hl) as NV. assert (BV : mblk Vh < next m) by apply (lm_own _ _ _ Vh Hl (or_introl eq_refl)).
  assert (IE : In E (Vh :: cbmats cb ++ omats o ++ Ls)) by (unfold cb; cbn; auto).
  assert (BE : mblk E < next m) by apply (lm_own _ _ _ E Hl IE).
  assert (NEV : mblk E <> mblk Vh) by (apply (lm_neq _ _ _ _ E Hl); unfold cb; cbn; auto).
  apply wp_bind. eapply wp_initv_lm; [exact Hl|]. intros tau m1 Et Hl1 K1. pose proof (kb_next _ _ _ K1) as N1.
  assert (Bt : vblk tau = next m) by (rewrite Et; reflexivity). assert (Dt : vdim tau = k) by (rewrite Et; reflexivity). clear Et.
  apply wp_bind. eapply (wp_qr_lm L O H); [exact Hl1|eapply mval_kb; [exact Hf|exact K1|exact BV|intros []]|rewrite Dt, Ec; reflexivity|].
  intros F tv m2 HF HVh Htau Hl2 K2. rewrite Ec in HF. rewrite Dt in Htau. pose proof (kb_next _ _ _ K2) as N2.
  assert (Bt1 : vblk tau < next m1) by apply (lm_own _ _ _ (vm tau) Hl1 (or_introl eq_refl)).
  assert (He2 : mval m2 E e).
  { eapply mval_kb; [eapply mval_kb; [exact He|exact K1|exact BE|intros []]|exact K2|lia|]. intros [E1|[E1|[]]]; [lia|congruence]. }
  apply wp_bind. eapply wp_init_kb; [exact Hl2|]. intros Eo m3 EEo Hl3 K3. pose proof (kb_next _ _ _ K3) as N3.
  assert (BEo : mblk Eo = next m2) by (rewrite EEo; reflexivity). assert (REo : mrows Eo = k0) by (rewrite EEo; reflexivity). assert (CEo : mcols Eo = mcols E) by (rewrite EEo; reflexivity). clear EEo.
  assert (WEo : mwf Eo) by apply (lm_own _ _ _ Eo Hl3 (or_introl eq_refl)). assert (BEo3 : mblk Eo < next m3) by apply (lm_own _ _ _ Eo Hl3 (or_introl eq_refl)).
  apply wp_bind. eapply (wp_copy_lm D m3 _ false E Eo Eo e); [exact Hl3|left; reflexivity|exact WEo|auto|reflexivity|eapply mval_kb; [exact He2|exact K3|lia|intros []]|lia|lia|lia|].
  intros m4 HEo4 Hl4 K4 _. cbn [tr] in HEo4. pose proof (kb_next _ _ _ K4) as N4.
  assert (HVh4 : mval m4 Vh F). { eapply mval_kb; [eapply mval_kb; [exact HVh|exact K3|lia|intros []]|exact K4|lia|]. intros [E1|[]]. lia. }
  assert (Htau4 : tval m4 tau k tv). { eapply tval_kb; [eapply tval_kb; [exact Htau|exact K3|lia|intros []]|exact K4|lia|]. intros [E1|[]]. lia. }
  set (rest := Eo :: vm tau :: Vh :: omats o ++ Ls).
  assert (Hl4' : lm D m4 (cbmats cb ++ rest)) by (eapply lm_perm; [|exact Hl4]; unfold rest; perm).
  apply wp_bind. eapply wp_setrank_E; [exact Hl4'|]. intros V' E' l' m5. cbv zeta. intros X1 X2 X3 X4 X5 X6 Hl5 X7 K5.
  set (cb' := CB t k kt kb0 V' E' l' Z) in *. pose proof (proj1 K5) as N5. fold (kb (rkblks cb) m4 m5) in K5.
  assert (Nrest : forall A, In A rest -> ~ In (mblk A) (rkblks cb)).
  { intros A HA Hc. apply rkblks_in in Hc. eapply (lm_apart D m4 (cbmats cb) rest [] (mblk A)); [rewrite app_nil_r; exact Hl4'|exact Hc|apply in_map, HA]. }
  assert (HVh5 : mval m5 Vh F). { eapply mval_kb; [exact HVh4|exact K5|lia|]. apply Nrest. right. right. left. reflexivity. }
  assert (Htau5 : tval m5 tau k tv). { eapply tval_kb; [exact Htau4|exact K5|lia|]. apply (Nrest (vm tau)). right. left. reflexivity. }
  assert (HEo5 : mval m5 Eo e). { eapply mval_kb; [exact HEo4|exact K5|lia|]. apply (Nrest Eo). left. reflexivity. }
  assert (Eup : update_clusterbasis cb' = CB t k (cb_ktree (update_clusterbasis cb')) (cb_kbranch (update_clusterbasis cb')) V' E' l' Z) by (unfold cb'; rewrite update_eq; destruct l'; reflexivity).
  assert (EupE : cb_E (update_clusterbasis cb') = E') by (rewrite Eup; reflexivity).
  assert (Hl5E : lm D m5 (Eo :: E' :: V' :: vm tau :: Vh :: flat_map cbmats l' ++ omats o ++ Ls)) by (eapply lm_perm; [|exact Hl5]; unfold rest, cb'; cbn [cbmats]; perm).
  apply wp_bind. apply wp_init_sub_amatrix; [unfold k; lia|lia|].
  apply wp_bind. assert (HVs5 : mval m5 (subm Vh 0 k 0 k0) F) by (eapply mval_ext; [eapply mval_subm; [exact HVh5|unfold k; lia|lia]|]; intros i j _ _; reflexivity).
  assert (NEoVh : mblk Vh <> mblk Eo) by lia.
  eapply (wp_triangulareval_amatrix RL TT TT false false false _ false Eo F e).
  { exact WEo. } { intros i j Hi Hj _. apply HVs5; assumption. } { exact HEo5. }
  { intros a (i & j & Hi & Hj & _ & ->) Hb. apply inm_blk in Hb. cbn in Hb. congruence. } { apply TTr. } { apply TTw. } { cbn. unfold k. lia. } { cbn. lia. }
  intros g' m6 Hg1 _ HEo6 Kk6. cbn [oprows opcols tr mrows mcols subm] in Hg1. change (nln false Eo) with (mcols Eo) in Hg1.
  destruct (lm_writep D m5 m6 _ Eo Eo g' Hl5E (or_introl eq_refl) (fun a Ha => Ha) Kk6 HEo6) as [Hl6 K6]. pose proof (kb_next _ _ _ K6) as N6.
  rewrite EupE. apply wp_bind. apply wp_init_sub_amatrix; [unfold k in *; lia|lia|].
  pose proof (lm_own _ _ _ E' Hl6 (or_intror (or_introl eq_refl))) as (E'1 & E'2 & E'3 & E'4). assert (NE'Eo : mblk E' <> mblk Eo) by (apply (lm_neq _ _ _ _ E' Hl6); left; reflexivity).
  apply wp_bind. eapply (wp_copy_lm D m6 _ false _ E' E' (fun i j => g' (0 + i) (0 + j))); [exact Hl6|right; left; reflexivity|exact E'3|auto|reflexivity| |cbn; congruence|cbn; lia|cbn; lia|].
  { apply mval_subm; [exact HEo6|unfold k in *; lia|lia]. }
  intros m7 HE7 Hl7 K7 _. cbn [tr] in HE7. pose proof (kb_next _ _ _ K7) as N7.
  apply wp_bind. eapply wp_uninit_kb; [exact Hl7|]. intros m8 Hl8 K8. pose proof (kb_next _ _ _ K8) as N8.
  assert (NE'Vh : mblk Vh <> mblk E') by (apply (lm_neq _ _ _ _ Vh Hl8); cbn; auto).
  assert (NE'tau : vblk tau <> mblk E') by (apply (lm_neq _ _ _ _ (vm tau) Hl8); cbn; auto).
  assert (HVh8 : mval m8 Vh F).
  { eapply mval_kb; [eapply mval_kb; [eapply mval_kb; [exact HVh5|exact K6|lia|]|exact K7|lia|]|exact K8|lia|]; (intros [E1|[]]; congruence). }
  assert (Htau8 : tval m8 tau k tv).
  { assert (Nt : vblk tau <> mblk Eo) by lia.
    eapply tval_kb; [eapply tval_kb; [eapply tval_kb; [exact Htau5|exact K6|lia|]|exact K7|lia|]|exact K8|lia|]; (intros [E1|[]]; congruence). }
  assert (HE8 : mval m8 E' (mmul k0 (up F) e)).
  { eapply mval_kb; [eapply mval_ext; [exact HE7|]|exact K8|lia|intros [E1|[]]; congruence]. cbn. intros i j Hi Hj. apply Hg1; lia. }
  assert (K08 : forall bs, (forall b, In b (mblk Vh :: rkblks cb) -> In b bs) -> kb bs m m8).
  { intros bs HI.
    assert (Y2 : kb [mblk Vh] m m2) by (eapply kb_trans; [exact K1|exact K2|intros b []|]; intros b [<-|[<-|[]]]; [right; lia|left; left; reflexivity]).
    assert (Y34 : kb [] m2 m4) by (eapply kb_trans; [exact K3|exact K4|intros b []|]; intros b [<-|[]]; right; lia).
    assert (Y4 : kb [mblk Vh] m m4) by (eapply kb_trans; [exact Y2|exact Y34|auto|]; intros b []).
    assert (Y5 : kb (mblk Vh :: rkblks cb) m m5). { eapply kb_trans; [exact Y4|exact K5| |]; [intros b [<-|[]]; left; reflexivity|intros b Hb; left; right; exact Hb]. }
    assert (Y6 : kb (mblk Vh :: rkblks cb) m m6). { eapply kb_trans; [exact Y5|exact K6|auto|]. intros b [<-|[]]. right. lia. }
    assert (BE' : In (mblk E') (rkblks cb) \/ next m <= mblk E').
    { destruct X6 as [X6|X6]; [left; rewrite X6; unfold cb, rkblks; destruct l; cbn; auto|right; lia]. }
    assert (Y7 : kb (mblk Vh :: rkblks cb) m m7). { eapply kb_trans; [exact Y6|exact K7|auto|]. intros b [<-|[]]. destruct BE' as [B|B]; [left; right; exact B|right; exact B]. }
    eapply kb_trans; [exact Y7|exact K8|exact HI|]. intros b [<-|[]]. right. lia. }
  assert (HB : forall b, In b (map mblk (cbmats cb')) -> In b (map mblk (cbmats cb ++ omats o)) \/ next m <= b).
  { intros b Hb. apply X7 in Hb as [Hb|Hb]; [left; rewrite map_app; apply in_or_app; left; exact Hb|right; lia]. }
  destruct o as [[t1 r1 c1 C1 l1]|].
  - destruct (Ho _ eq_refl) as (Ho1 & Ho2). cbn in Ho1, Ho2. apply wp_bind. apply wp_bind.
    eapply wp_put_factor with (F := F) (Ls := vm tau :: cbmats cb' ++ flat_map comats l1 ++ Ls); [|exact HVh8|exact Ho1|exact Ho2|unfold k; lia|exact Ec|].
    { eapply lm_perm; [|exact Hl8]. unfold cb'. cbn [cbmats]. perm. }
    intros C' m9 C'1 C'2 C'3 Hl9 C'4 K9. cbn [wp].
    assert (NC : ~ In (mblk C1) (map mblk (E' :: V' :: vm tau :: Vh :: flat_map cbmats l'))).
    { intros Hc. eapply (lm_apart D m8 (E' :: V' :: vm tau :: Vh :: flat_map cbmats l') [C1] (flat_map comats l1 ++ Ls) (mblk C1)); [|exact Hc|left; reflexivity].
      eapply lm_perm; [|exact Hl8]. perm. }
    assert (HB8 : forall A, In A (E' :: V' :: vm tau :: Vh :: flat_map cbmats l') -> mblk A < next m8).
    { intros A HA. apply (lm_own _ _ _ A Hl8). change (In A ((E' :: V' :: vm tau :: Vh :: flat_map cbmats l') ++ omats (Some (CO t1 r1 c1 C1 l1)) ++ Ls)). apply in_or_app. left. exact HA. }
    apply (HQ tau F tv V' E' l' (Some (CO t1 k k0 C' l1)) m9); auto; [lia|..].
    + eapply mval_kb; [exact HVh8|exact K9|apply HB8; cbn; auto|]. intros [E1|[]]. apply NC. rewrite E1. cbn. auto.
    + eapply tval_kb; [exact Htau8|exact K9|apply (HB8 (vm tau)); cbn; auto|]. intros [E1|[]]. apply NC. rewrite E1. cbn. auto.
    + eapply mval_kb; [exact HE8|exact K9|apply HB8; cbn; auto|]. intros [E1|[]]. apply NC. rewrite E1. cbn. auto.
    + cbn. exists C'. auto.
    + eapply lm_perm; [|exact Hl9]. unfold cb'. cbn [cbmats]. perm.
    + intros b Hb. rewrite map_app in Hb. apply in_app_or in Hb as [Hb|Hb]; [apply HB, Hb|]. rewrite map_app. destruct Hb as [<-|Hb].
      * destruct C'4 as [->|C'4]; [left; apply in_or_app; right; left; reflexivity|right; lia].
      * left. apply in_or_app. right. right. exact Hb.
    + eapply kb_trans; [apply (K08 _ (fun b Hb => Hb))|exact K9| |].
      * cbn [cblk co_C]. intros b [<-|Hb]; [left; reflexivity|right; apply in_or_app; left; exact Hb].
      * intros b [<-|[]]. left. right. apply in_or_app. right. left. reflexivity.
  - apply wp_bind. cbn [wp]. apply (HQ tau F tv V' E' l' None m8); auto; [lia|..].
    + cbn. exact I.
    + eapply lm_perm; [|exact Hl8]. unfold cb'. cbn [cbmats]. perm.
    + intros b Hb. cbn [omats] in Hb. rewrite app_nil_r in Hb. apply HB, Hb.
    + cbn [cblk]. rewrite app_nil_r. apply K08. auto.
Qed.
End P.
