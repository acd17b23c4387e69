(** * Orthogonalisation of cluster bases: all clusters *)
From Coq Require Import Arith Lia List Bool Permutation Ring.
From Verif Require Import Fld Ord Prog Arr View Loop Line Spec Cluster Block Avector Amatrix AvectorP AmatrixP AmatrixP2 RkP Factor FactorSpec FactorP FactorP2 FactorP3 LrP
  Chol CholSpec CholP5 Qr QrSpec QrP QrP2 QrP3 QrP4 QrP7 QrP8 QrP10 Hmatrix HmSpec HmP Clusterbasis CbSpec CbP CbP2 Cbmgr CbmSpec CbmP CbmP2 CbmP3 Clusterop CopSpec OrthoP OrthoP2 OrthoP3.
Import ListNotations.

Lemma skipn_nth {A} (l : list A) n c : nth_error l n = Some c -> skipn n l = c :: skipn (S n) l.
Proof. revert n. induction l as [|a l IH]; intros [|n] Hn; cbn in *; try discriminate; [injection Hn as ->; reflexivity|apply IH, Hn]. Qed.
Lemma skipn_sub {A} (l : list A) n : incl (skipn n l) l.
Proof. revert n. induction l as [|a l IH]; intros [|n]; cbn; try apply incl_refl. apply incl_tl, IH. Qed.

Section P.
Context {K : fops} {G : ofops} (L : field_laws K) (O : qops K) (H : qlaws O).
Notation RL := (fl_ring K L).
Add Ring KringO4 : (rl_ring K (fl_ring K L)).
Local Notation cbx := (cbasis G).
Local Notation cox := (clusterop G).
Implicit Types (m : mem K) (cb s : cbasis G) (D : nat -> Prop) (Ls X : list mat) (F f e : nat -> nat -> K) (o : option cox).
Notation up F := (tripart false false F).
Notation ex := (exact_zero O).

Lemma wp_sonsS {A S} (Inv : nat -> S -> mem K -> Prop) (l : list A) (body : nat -> A -> S -> prog K S) (s : S) m (Q : S -> mem K -> Prop) :
  Inv 0 s m -> (forall i a x m1, nth_error l i = Some a -> Inv i x m1 -> wp TT TT (body i a x) m1 (fun x' m2 => Inv (Datatypes.S i) x' m2)) ->
  (forall x m1, Inv (length l) x m1 -> Q x m1) -> wp TT TT (sons l body s) m Q.
Proof.
  intros H0 H1 H2. unfold sons. eapply (wp_forS Inv); [exact H0| |exact H2]. intros i x m1 Hi HI.
  destruct (nth_ex l i) as [a Ha]; [lia|]. rewrite (sget_some l i a Ha). cbn [bind]. apply H1; assumption.
Qed.
Lemma wp_passert (b : bool) m (Q : unit -> mem K -> Prop) : b = true -> Q tt m -> wp TT TT (passert b) m Q.
Proof. intros -> HQ. exact HQ. Qed.

Definition ortho_sons o : nat -> list cbx -> prog K (list (cbx * option cox)) :=
  fix go i l := match l with
    | [] => Ret []
    | s :: l' =>
        oi <- match o with Some co => c <- sget (Some (co_son co)) i ;; Ret (Some c) | None => Ret None end ;;
        r <- ortho_clusterbasis O s oi ;;
        rs <- go (S i) l' ;;
        Ret (r :: rs)
    end.
Lemma ortho_eq_node t kold kt kb V E s0 l Z o : ortho_clusterbasis O (CB t kold kt kb V E (s0 :: l) Z) o =
  (match o with Some co => passert (length (s0 :: l) =? length (co_son co)) | None => Ret tt end ;;;
   sl <- ortho_sons o 0 (s0 :: l) ;; ortho_node O (CB t kold kt kb V E (s0 :: l) Z) o sl).
Proof. reflexivity. Qed.

Definition oform o o' cb' : Prop :=
  match o, o' with
  | None, None => True
  | Some co, Some co' => cofor cb' co' /\ co_t co' = co_t co
  | _, _ => False
  end.
Definition rmats (r : cbx * option cox) : list mat := cbmats (fst r) ++ omats (snd r).
Definition rmats0 (r : cbx * option cox) : list mat := cbmats0 (fst r) ++ omats (snd r).

(** What holds for a cluster after the orthogonalisation *)
Definition ores m m' cb e o cb' o' (R : nat -> nat -> K) : Prop :=
  orth_of ex m m' cb cb' o' R /\ cbok cb' /\ cbinit m' cb' /\ mrows (cb_E cb') = cb_k cb' /\ mcols (cb_E cb') = mcols (cb_E cb) /\
  mval m' (cb_E cb') (mmul (cb_k cb) R e) /\ oform o o' cb'.
Definition ortho_ok cb : Prop := forall D o Ls m e (Q : cbx * option cox -> mem K -> Prop),
  cbok cb -> mrows (cb_E cb) = cb_k cb -> cbinit m cb -> mval m (cb_E cb) e -> (forall co, o = Some co -> cofor cb co) ->
  lm D m (cbmats cb ++ omats o ++ Ls) ->
  (forall cb' o' R m', ores m m' cb e o cb' o' R -> lm D m' (cbmats cb' ++ omats o' ++ Ls) ->
     newb (cbmats cb ++ omats o) (cbmats cb' ++ omats o') m -> kb (map mblk (cbmats cb ++ omats o)) m m' -> Q (cb', o') m') ->
  wp TT TT (ortho_clusterbasis O cb o) m Q.

Definition orest o n : list cox := match o with Some co => skipn n (co_son co) | None => [] end.
Definition sonrel m m1 o s (r : cbx * option cox) : Prop := exists R oi, ores m m1 s (mfun m (cb_E s)) oi (fst r) (snd r) R /\ (oi = None <-> o = None).

Lemma ores_same X m m1 m2 cb e o cb' o' R : ores m m1 cb e o cb' o' R -> same X m1 m2 -> incl (cbmats cb' ++ omats o') X -> ores m m2 cb e o cb' o' R.
Proof.
  intros (A1 & A2 & A3 & A4 & A5 & A6 & A7) HS HI. assert (HI1 : incl (cbmats cb') X) by (intros A HA; apply HI, in_or_app; left; exact HA).
  assert (HI0 : incl (cbmats0 cb') X) by (intros A HA; apply HI1, mats0_in, HA).
  split; [|split; [exact A2|split; [|split; [exact A4|split; [exact A5|split; [|exact A7]]]]]].
  - eapply orth_same; [exact A1|exact HS|]. intros A HA. apply in_app_or in HA as [HA|HA]; [apply HI0, HA|apply HI, in_or_app; right; exact HA].
  - eapply same_init; eassumption.
  - eapply same_mval; [exact A6|exact HS|]. apply HI1. rewrite cbmats_E. right. left. reflexivity.
Qed.
Lemma sonrel_same X m m1 m2 o s r : sonrel m m1 o s r -> same X m1 m2 -> incl (rmats r) X -> sonrel m m2 o s r.
Proof. intros (R & oi & HR & Ho) HS HI. exists R, oi. split; [eapply ores_same; eassumption|exact Ho]. Qed.
Lemma disj_mats cb X : incl (cbmats cb) X -> disj (incb cb) (fun a => ~ In (fst a) (map mblk X)).
Proof. intros HI. apply incb0. intros A HA. apply HI, mats0_in, HA. Qed.

Lemma wp_osons D m o Ls l : (forall s, In s l -> ortho_ok s) ->
  (forall s, In s l -> cbok s /\ mrows (cb_E s) = cb_k s /\ cbinit m s /\ mval m (cb_E s) (mfun m (cb_E s))) ->
  (forall co, o = Some co -> length (co_son co) = length l /\ forall i s c, nth_error l i = Some s -> nth_error (co_son co) i = Some c -> cofor s c) ->
  forall l2 l1 bs m1 (Q : list (cbx * option cox) -> mem K -> Prop), l = l1 ++ l2 -> Forall2 (sonrel m m1 o) l1 bs -> same (flat_map cbmats l2) m m1 ->
    lm D m1 (flat_map rmats bs ++ flat_map cbmats l2 ++ flat_map comats (orest o (length l1)) ++ Ls) ->
    newb (flat_map cbmats l ++ flat_map comats (orest o 0)) (flat_map rmats bs) m ->
    kb (map mblk (flat_map cbmats l ++ flat_map comats (orest o 0))) m m1 ->
    (forall bs2 m2, Forall2 (sonrel m m2 o) l (bs ++ bs2) -> lm D m2 (flat_map rmats (bs ++ bs2) ++ Ls) ->
       newb (flat_map cbmats l ++ flat_map comats (orest o 0)) (flat_map rmats (bs ++ bs2)) m ->
       kb (map mblk (flat_map cbmats l ++ flat_map comats (orest o 0))) m m2 -> Q bs2 m2) ->
    wp TT TT (ortho_sons o (length l1) l2) m1 Q.
Proof.
  intros IH Hl Ho. induction l2 as [|s l2 IHl]; intros l1 bs m1 Q El HF HS HL HN HK HQ.
  - cbn [ortho_sons]. rewrite app_nil_r in El. subst l1. change (Q [] m1). apply HQ; rewrite ?app_nil_r; [exact HF| |exact HN|exact HK].
    replace (orest o (length l)) with (@nil cox) in HL; [exact HL|]. destruct o as [co|]; [|reflexivity]. cbn. destruct (Ho co eq_refl) as [<- _]. symmetry. apply skipn_all.
  - assert (Hs : In s l) by (rewrite El; apply in_or_app; right; left; reflexivity).
    assert (Hn : nth_error l (length l1) = Some s) by (rewrite El, nth_error_app2, Nat.sub_diag by lia; reflexivity).
    assert (HO : exists oi, (match o with Some co => c <- sget (Some (co_son co)) (length l1) ;; Ret (Some c) | None => Ret None end : prog K (option cox)) = Ret oi /\
      (oi = None <-> o = None) /\ (forall c, oi = Some c -> cofor s c) /\ incl (omats oi) (flat_map comats (orest o 0)) /\
      flat_map comats (orest o (length l1)) = omats oi ++ flat_map comats (orest o (S (length l1)))).
    { destruct o as [co|].
      - destruct (Ho co eq_refl) as [E1 E2]. destruct (nth_ex (co_son co) (length l1)) as [c Hc]; [apply nth_in in Hn; lia|].
        exists (Some c). rewrite (sget_some _ _ _ Hc). cbn [orest skipn]. split; [reflexivity|]. split; [split; discriminate|]. split; [intros c' [= <-]; eapply E2; eassumption|].
        split; [|rewrite (skipn_nth _ _ _ Hc); reflexivity]. intros A HA. apply in_flat_map. exists c. split; [eapply nth_error_In; exact Hc|exact HA].
      - exists None. cbn. split; [reflexivity|]. split; [split; reflexivity|]. split; [discriminate|]. split; [intros A []|reflexivity]. }
    destruct HO as (oi & EO & O1 & O2 & O3 & O4). cbn [ortho_sons]. fold (ortho_sons o). rewrite EO. cbn [bind].
    destruct (Hl s Hs) as (S1 & S2 & S3 & S4). rewrite O4 in HL. cbn [flat_map] in HL, HS.
    set (rest := flat_map rmats bs ++ flat_map cbmats l2 ++ flat_map comats (orest o (S (length l1))) ++ Ls).
    assert (Hin : incl (cbmats s) (cbmats s ++ flat_map cbmats l2)) by (intros A HA; apply in_or_app; left; exact HA).
    assert (HL' : lm D m1 (cbmats s ++ omats oi ++ rest)) by (eapply lm_perm; [|exact HL]; unfold rest; perm).
    apply wp_bind. eapply (IH s Hs D oi rest m1 (mfun m (cb_E s))); [exact S1|exact S2| | |exact O2|exact HL'|].
    { eapply cbinit_keeps; [exact S3|exact HS|]. apply disj_mats. exact Hin. }
    { eapply same_mval; [exact S4|exact HS|]. apply Hin. rewrite cbmats_E. right. left. reflexivity. }
    intros cb' o' R m2 HR HL2 HN2 K2. unfold rest in HL2.
    assert (HSr : same rest m1 m2). { eapply (same_lm D rest (cbmats s ++ omats oi) []); [|exact K2|apply incl_refl]. eapply lm_perm; [|exact HL']. perm. }
    assert (HB : forall b, In b (map mblk (cbmats s ++ omats oi)) -> In b (map mblk (flat_map cbmats l ++ flat_map comats (orest o 0)))).
    { intros b Hb. apply in_map_iff in Hb as (A & <- & HA). apply in_map. apply in_app_or in HA as [HA|HA].
      - apply in_or_app. left. apply in_flat_map. exists s. auto.
      - apply in_or_app. right. apply O3, HA. }
    assert (HK2 : kb (map mblk (flat_map cbmats l ++ flat_map comats (orest o 0))) m m2).
    { eapply kb_trans; [exact HK|exact K2|auto|]. intros b Hb. left. apply HB, Hb. }
    apply wp_bind. replace (S (length l1)) with (length (l1 ++ [s])) by (rewrite app_length; cbn; lia).
    eapply (IHl (l1 ++ [s]) (bs ++ [(cb', o')])).
    + rewrite El, <- app_assoc. reflexivity.
    + apply Forall2_app.
      * apply Forall2_nth in HF as (F1 & F2). apply Forall2_nth. split; [exact F1|]. intros i a b Ha Hb. eapply sonrel_same; [eapply F2; eassumption|exact HSr|].
        intros A HA. unfold rest. apply in_or_app. left. apply in_flat_map. exists b. split; [eapply nth_error_In; exact Hb|exact HA].
      * constructor; [|constructor]. exists R, oi. split; [|exact O1]. destruct HR as (R1 & R2). split; [|exact R2].
        eapply orth_src; [exact R1|exact HS|]. apply disj_mats. exact Hin.
    + eapply keeps_trans; [eapply same_sub; [exact HS|]|eapply same_sub; [exact HSr|]].
      * intros A HA. apply in_or_app. right. exact HA.
      * intros A HA. unfold rest. apply in_or_app. right. apply in_or_app. left. exact HA.
    + rewrite app_length, Nat.add_1_r. eapply lm_perm; [|exact HL2]. rewrite flat_map_app. cbn [flat_map]. change (rmats (cb', o')) with (cbmats cb' ++ omats o'). perm.
    + intros b Hb. rewrite flat_map_app, map_app in Hb. apply in_app_or in Hb as [Hb|Hb]; [apply HN, Hb|]. cbn [flat_map] in Hb. rewrite app_nil_r in Hb.
      apply HN2 in Hb as [Hb|Hb]; [left; apply HB, Hb|right]. pose proof (kb_next _ _ _ HK). lia.
    + exact HK2.
    + intros bs2 m3 X1 X2 X3 X4. rewrite <- app_assoc in X1, X2, X3. apply HQ; assumption.
Qed.

(** ** Expansion of the orthogonal factor *)
Lemma sel_id (X : mat) n : n = mrows X -> sel X n = X. Proof. intros ->. destruct X. reflexivity. Qed.
Lemma wp_qrexpand_lm D m tau Vh q Ls F tv k (Q : unit -> mem K -> Prop) : lm D m (vm tau :: Vh :: Ls) -> In q Ls -> mval m Vh F -> tval m tau k tv ->
  vdim tau = k -> k = Nat.min (mrows Vh) (mcols Vh) -> mrows q = mrows Vh -> mcols q = k ->
  (forall m', mval m' q (qmat (mrows Vh) F tv k) -> lm D m' (vm tau :: Vh :: Ls) -> kb [mblk q] m m' -> Q tt m') ->
  wp TT TT (qrexpand_amatrix Vh tau q) m Q.
Proof.
  intros HL Hq HV Ht Ed Ek Er Ec HQ. destruct (lm_own _ _ _ q HL) as (q1 & q2 & q3 & q4); [right; right; exact Hq|].
  assert (N1 : mblk q <> vblk tau) by (apply (lm_neq _ _ _ _ q HL); right; exact Hq).
  assert (N2 : mblk q <> mblk Vh). { apply (lm_neq D m Vh (vm tau :: Ls) q); [eapply lm_perm; [|exact HL]; apply perm_swap|right; exact Hq]. }
  eapply (wp_qrexpand L TT TT Vh tau q F tv).
  - exact q3.
  - exact q4.
  - intros i j Hi Hj _. apply HV; assumption.
  - rewrite Ed, <- Ek, Nat.min_id. exact Ht.
  - lia.
  - lia.
  - intros a (i & j & Hi & Hj & _ & ->) Hb. apply inm_blk in Hb. cbn in Hb. congruence.
  - intros a Ha Hb. apply inm_blk in Hb. apply inv_blk in Ha. congruence.
  - apply TTr.
  - apply TTr.
  - apply TTw.
  - intros m' Hv Hk. rewrite (sel_id q) in Hv, Hk by (symmetry; exact Er). rewrite Ed, <- Ek, Nat.min_id in Hv. apply HQ; [exact Hv| |apply kb_inm, Hk].
    eapply lm_write1; [exact HL|right; right; exact Hq|exact Hk|]. intros i j Hi Hj. rewrite (Hv i j Hi Hj). discriminate.
Qed.

(** ** Leaves *)
Lemma cofor_inv cb (co : cox) : cofor cb co -> mrows (co_C co) = co_krow co /\ mcols (co_C co) = co_kcol co /\ length (co_son co) = length (cb_son cb) /\
  (forall i s c, nth_error (cb_son cb) i = Some s -> nth_error (co_son co) i = Some c -> cofor s c).
Proof. intros Hc. destruct Hc. auto. Qed.
Lemma kb_blk D m Ls A : lm D m Ls -> In A Ls -> mblk A < next m. Proof. intros HL HA. apply (lm_own _ _ _ A HL HA). Qed.

Lemma ortho_leaf t k0 kt kb0 V E Z : ortho_ok (CB t k0 kt kb0 V E [] Z).
Proof.
  intros D o Ls m e Q Hok ErE Hi He Ho HL HQ. cbn [cb_E cb_k] in ErE, He. set (cb := CB t k0 kt kb0 V E [] Z) in *.
  assert (EV : mrows V = csz t /\ mcols V = k0) by (inversion Hok; [split; assumption|congruence]). destruct EV as [EV1 EV2].
  assert (HV : mval m V (mfun m V)) by (eapply cbinit_V; exact Hi).
  change (ortho_clusterbasis O cb o) with (match o with Some co => passert (0 =? length (co_son co)) | None => Ret tt end ;;;
    Vhat <- init_amatrix (csz t) k0 ;; copy_amatrix false V Vhat ;;; r <- ortho_factor O cb Vhat o ;;
    let '(tau, cb1, o2) := r in qrexpand_amatrix Vhat tau (cb_V cb1) ;;; uninit_avector tau ;;; uninit_amatrix Vhat ;;; Ret (cb1, o2)).
  apply wp_bind. assert (HX : (match o with Some co => passert (0 =? length (co_son co)) | None => Ret tt end : prog K unit) = Ret tt).
  { destruct o as [co|]; [|reflexivity]. destruct (cofor_inv _ _ (Ho co eq_refl)) as (_ & _ & H3 & _). cbn in H3. rewrite H3. reflexivity. }
  assert (Hdim : forall co, o = Some co -> mrows (co_C co) = co_krow co /\ mcols (co_C co) = co_kcol co).
  { intros co E1. destruct (cofor_inv _ _ (Ho co E1)) as (H1 & H2 & _). auto. }
  assert (Hson : forall co, o = Some co -> co_son co = []).
  { intros co E1. destruct (cofor_inv _ _ (Ho co E1)) as (_ & _ & H3 & _). unfold cb in H3. cbn in H3. destruct (co_son co); [reflexivity|discriminate]. }
  rewrite HX. cbn [wp]. clear HX.
  apply wp_bind. eapply wp_init_kb; [exact HL|]. intros Vh m1 EVh HL1 K1. pose proof (kb_next _ _ _ K1) as N1.
  assert (BVh : mblk Vh = next m) by (rewrite EVh; reflexivity). assert (RVh : mrows Vh = csz t) by (rewrite EVh; reflexivity). assert (CVh : mcols Vh = k0) by (rewrite EVh; reflexivity). clear EVh.
  assert (InV : In V (Vh :: cbmats cb ++ omats o ++ Ls)) by (unfold cb; cbn; auto).
  assert (BV : mblk V < next m) by (eapply kb_blk; [exact HL|unfold cb; cbn; auto]).
  assert (BE : mblk E < next m) by (eapply kb_blk; [exact HL|unfold cb; cbn; auto]).
  assert (HV1 : mval m1 V (mfun m V)) by (eapply mval_kb; [exact HV|exact K1|exact BV|intros []]).
  apply wp_bind. eapply (wp_copy_lm D m1 _ false V Vh Vh (mfun m V)); [exact HL1|left; reflexivity|apply (lm_own _ _ _ Vh HL1 (or_introl eq_refl))|auto|reflexivity|exact HV1|lia|lia|lia|].
  intros m2 HVh2 HL2 K2 _. cbn [tr] in HVh2. pose proof (kb_next _ _ _ K2) as N2.
  assert (He2 : mval m2 E e). { eapply mval_kb; [eapply mval_kb; [exact He|exact K1|exact BE|intros []]|exact K2|lia|]. intros [E1|[]]. lia. }
  apply wp_bind. eapply (wp_ortho_factor L O H D m2 t k0 kt kb0 V E [] Z Vh o Ls (mfun m V) e); [exact HL2|exact HVh2|exact CVh|exact ErE|exact He2|exact Hdim|].
  rewrite RVh. set (k := Nat.min (csz t) k0). intros tau F tv V' E' l' o' m3. cbv zeta. intros Dt Bt HF HVh3 Ht3 X1 _ X3 X4 X5 HE3 Hor HL3 HN3 K3.
  destruct (X1 eq_refl) as [X11 X12]. inversion X3; subst l'. clear X3. rewrite update_eq. cbv iota. set (cb' := CB t k (k + csz t) (k + csz t) V' E' [] Z).
  pose proof (kb_next _ _ _ K3) as N3.
  change (cbmats (CB t k kt kb0 V' E' [] Z)) with (cbmats cb') in HL3, HN3.
  apply wp_bind. change (cb_V cb') with V'.
  eapply (wp_qrexpand_lm D m3 tau Vh V' _ F tv k); [exact HL3|unfold cb'; cbn; auto|exact HVh3|exact Ht3|exact Dt|rewrite RVh, CVh; reflexivity|lia|exact X12|].
  rewrite RVh. intros m4 HV4 HL4 K4. pose proof (kb_next _ _ _ K4) as N4.
  apply wp_bind. eapply wp_uninitv_lm; [exact HL4|]. intros m5 HL5 K5. pose proof (kb_next _ _ _ K5) as N5.
  apply wp_bind. eapply wp_uninit_kb; [exact HL5|]. intros m6 HL6 K6. pose proof (kb_next _ _ _ K6) as N6. cbn [wp].
  set (X := cbmats cb' ++ omats o').
  assert (S45 : same X m4 m5). { eapply (same_lm D X [vm tau] (Vh :: Ls)); [eapply lm_perm; [|exact HL4]; unfold X; perm|exact K5|apply incl_refl]. }
  assert (S56 : same X m5 m6). { eapply (same_lm D X [Vh] Ls); [eapply lm_perm; [|exact HL5]; unfold X; perm|exact K6|apply incl_refl]. }
  assert (S46 : same X m4 m6) by (eapply keeps_trans; eassumption).
  assert (S34 : same (E' :: omats o') m3 m4). { eapply (same_lm D (E' :: omats o') [V'] (vm tau :: Vh :: Ls)); [eapply lm_perm; [|exact HL3]; unfold cb'; cbn [cbmats]; perm|exact K4|apply incl_refl]. }
  assert (HV6 : mval m6 V' (qmat (csz t) F tv k)) by (eapply same_mval; [exact HV4|exact S46|unfold X, cb'; cbn; auto]).
  assert (HE6 : mval m6 E' (mmul k0 (up F) e)) by (eapply same_mval; [eapply same_mval; [exact HE3|exact S34|left; reflexivity]|exact S46|unfold X, cb'; cbn; auto]).
  assert (Hor6 : orel m6 k k0 F o o').
  { unfold orel in *. destruct o as [co|], o' as [co'|]; try exact Hor. destruct Hor as (C' & -> & C1 & C2 & C3). exists C'. split; [reflexivity|]. split; [exact C1|]. split; [exact C2|].
    eapply same_mval; [eapply same_mval; [exact C3|exact S34|cbn; auto]|exact S46|]. unfold X. apply in_or_app. right. left. reflexivity. }
  apply (HQ cb' o' (up F) m6).
  - split; [|split; [constructor; assumption|split; [|split; [exact X4|split; [exact X5|split; [exact HE6|]]]]]].
    + constructor.
      * reflexivity.
      * reflexivity.
      * reflexivity.
      * change (cb_size cb) with (csz t). change (cb_k cb') with k. change (cbmat m6 cb') with (mfun m6 V').
        eapply orthonormal_ext; [|apply (qrfac_orth O _ _ _ _ _ HF)]. intros p q Hp Hq. apply (mfun_mval _ _ _ HV6); [lia|fold k in Hq; lia].
      * intros HX p q Hp Hq. change (cb_size cb) with (csz t) in Hp. change (cb_k cb) with k0 in Hq. change (cb_k cb') with k. change (cbmat m6 cb') with (mfun m6 V'). change (cbmat m cb) with (mfun m V).
        rewrite (qrfac_thin L O _ _ _ _ _ HF HX p q Hp Hq). fold k. apply sum_ext. intros r Hr. rewrite (mfun_mval _ _ _ HV6) by lia. reflexivity.
      * intros co' E1. rewrite E1 in Hor6. destruct o as [co|]; [|destruct Hor6]. destruct Hor6 as (C' & -> & C1 & C2 & C3). cbn. auto.
      * intros i s s' Hs. destruct i; discriminate.
    + intros a Ha. inversion Ha as [? ? ? ? ? ? ? ? Hin|? s ? Hs|? s ? Hs]; subst; [|destruct Hs|destruct Hs].
      destruct Hin as (i & j & Hi1 & Hj1 & ->). eexists. apply HV6; assumption.
    + destruct o as [co|], o' as [co'|]; try exact Hor6. destruct Hor6 as (C' & -> & C1 & C2 & C3). cbn. split; [|reflexivity]. constructor; cbn; [exact C1|exact C2|rewrite (Hson co eq_refl); reflexivity|intros [|] s c; discriminate].
  - exact HL6.
  - intros b Hb. apply HN3 in Hb as [Hb|Hb]; [left; exact Hb|right; lia].
  - assert (Y2 : kb [] m m2). { eapply kb_trans; [exact K1|exact K2|auto|]. intros b [<-|[]]. right. lia. }
    assert (Y3 : kb (map mblk (cbmats cb ++ omats o)) m m3).
    { eapply kb_trans; [exact Y2|exact K3|intros b []|]. intros b [<-|Hb]; [right; lia|]. apply in_app_or in Hb as [Hb|Hb]; left; rewrite map_app; apply in_or_app; [left; apply rkblks_in, Hb|right; apply cblk_in, Hb]. }
    assert (Y4 : kb (map mblk (cbmats cb ++ omats o)) m m4).
    { eapply kb_trans; [exact Y3|exact K4|auto|]. intros b [<-|[]]. assert (HB : In (mblk V') (map mblk (cbmats cb' ++ omats o'))) by (left; reflexivity). apply HN3 in HB as [Hb|Hb]; [left; exact Hb|right; lia]. }
    assert (Y5 : kb (map mblk (cbmats cb ++ omats o)) m m5) by (eapply kb_trans; [exact Y4|exact K5|auto|]; intros b [<-|[]]; right; lia).
    eapply kb_trans; [exact Y5|exact K6|auto|]; intros b [<-|[]]; right; lia.
Qed.
End P.
