(** * Weights of cluster bases: induction over the tree *)
From Coq Require Import Arith Lia List Bool Permutation Ring.
From Verif Require Import Fld Ord Prog Arr View Loop Line Spec Cluster Block Avector Amatrix AvectorP AmatrixP AmatrixP2 RkP Factor FactorSpec FactorP FactorP2 FactorP3 LrP
  Chol CholSpec CholP5 Qr QrSpec QrP QrP2 QrP3 QrP4 QrP7 QrP8 QrP10 Hmatrix HmSpec HmP Clusterbasis CbSpec CbP CbP2 Cbmgr CbmSpec CbmP CbmP2 CbmP3 Clusterop CopSpec OrthoP OrthoP2 OrthoP3 OrthoP4 OrthoP5 OrthoP6 WeightP.
Import ListNotations.

Lemma fold_at {A} (f : A -> nat) l a : fold_left (fun x s => x + f s) l a = a + nsum (length l) (at_ f l).
Proof. revert a. induction l as [|s l IH]; intros a; cbn [fold_left length]; [cbn; lia|]. rewrite IH, nsum_head. cbn. rewrite Nat.add_assoc. reflexivity. Qed.

Section P.
Context {K : fops} {G : ofops} (L : field_laws K) (O : qops K) (H : qlaws O).
Notation RL := (fl_ring K L).
Add Ring KringW2 : (rl_ring K (fl_ring K L)).
Local Notation cbx := (cbasis G).
Local Notation cox := (clusterop G).
Implicit Types (m : mem K) (cb s : cbasis G) (D : nat -> Prop) (Ls X : list mat) (F f e : nat -> nat -> K) (o : option cox) (l : list cbx) (co c : cox) (cl : list cox).
Notation up F := (tripart false false F).
Notation ex := (exact_zero O).

Lemma weight_leaf (t : cptr G) k0 kt kb0 V E Z : weight_ok O (CB t k0 kt kb0 V E [] Z).
Proof.
  intros D co Ls m Q Hok Hi Hfor Hin HL HQ. set (cb := CB t k0 kt kb0 V E [] Z) in *.
  assert (EV : mrows V = csz t /\ mcols V = k0) by (inversion Hok; [split; assumption|congruence]). destruct EV as [EV1 EV2].
  assert (HV : mval m V (mfun m V)) by (eapply cbinit_V; exact Hi).
  destruct (cofor_inv _ _ Hfor) as (D1 & D2 & D3 & _). destruct co as [ct cr cc C cl]. cbn in D1, D2, D3. destruct cl; [|discriminate].
  change (weight_clusterbasis_clusteroperator O cb (CO ct cr cc C [])) with (Vhat <- init_amatrix (csz t) k0 ;; copy_amatrix false V Vhat ;;; weight_factor O Vhat k0 (CO ct cr cc C [])).
  assert (InV : In V Ls) by (apply Hin; left; reflexivity). cbn [comats flat_map app] in HL.
  apply wp_bind. eapply wp_init_kb; [exact HL|]. intros Vh m1 EVh HL1 K1. pose proof (kb_next _ _ _ K1) as N1.
  assert (BVh : mblk Vh = next m) by (rewrite EVh; reflexivity). assert (RVh : mrows Vh = csz t) by (rewrite EVh; reflexivity). assert (CVh : mcols Vh = k0) by (rewrite EVh; reflexivity). clear EVh.
  assert (BV : mblk V < next m) by (eapply kb_blk; [exact HL|right; exact InV]).
  apply wp_bind. eapply (wp_copy_lm D m1 _ false V Vh Vh (mfun m V)); [exact HL1|left; reflexivity|apply (lm_own _ _ _ Vh HL1 (or_introl eq_refl))|auto|reflexivity|eapply mval_kb; [exact HV|exact K1|exact BV|intros []]|lia|lia|lia|].
  intros m2 HVh2 HL2 K2 _. cbn [tr] in HVh2. pose proof (kb_next _ _ _ K2) as N2.
  eapply (wp_weight_factor L O H D m2 Vh ct cr cc C [] Ls (mfun m V) k0); [exact HL2|exact HVh2|exact CVh|exact D1|exact D2|].
  rewrite RVh. set (k := Nat.min (csz t) k0). intros C' F tv m3 HF C1 C2 C3 HL3 C4 K3. apply HQ.
  - apply (weight_of_intro ex m m3 cb (CO ct k k0 C' []) (up F) (qmat (csz t) F tv k)).
    + reflexivity.
    + reflexivity.
    + exact C1.
    + apply (qrfac_orth O _ _ _ _ _ HF).
    + intros HX p q Hp Hq. apply (qrfac_thin L O _ _ _ _ _ HF HX p q Hp Hq).
    + reflexivity.
    + intros i s c Hs. destruct i; discriminate.
  - constructor; cbn; [exact C2|exact C3|reflexivity|intros [|i] s c; discriminate].
  - reflexivity.
  - exact HL3.
  - intros b Hb. cbn in *. destruct Hb as [<-|[]]. destruct C4 as [C4|C4]; [left; left; symmetry; exact C4|right; lia].
  - assert (Y2 : kb [mblk C] m m2) by (eapply kb_trans; [exact K1|exact K2|intros b []|intros b [<-|[]]; right; lia]).
    eapply kb_trans; [exact Y2|exact K3|auto|]. intros b [<-|[<-|[]]]; [right; lia|left; left; reflexivity].
Qed.

Lemma wp_fillW D m Vh l cl k0 Ls (W : nat -> nat -> nat -> K) (Q : nat -> mem K -> Prop) : lm D m (Vh :: Ls) -> mval m Vh (fun _ _ => f0) -> length cl = length l ->
  (forall i s c, nth_error l i = Some s -> nth_error cl i = Some c -> In (cb_E s) Ls /\ In (co_C c) Ls /\ mrows (co_C c) = co_krow c /\ mcols (co_C c) = co_kcol c /\
     co_kcol c = mrows (cb_E s) /\ mcols (cb_E s) = k0 /\ mval m (cb_E s) (mfun m (cb_E s)) /\ mval m (co_C c) (W i)) ->
  mrows Vh = nsum (length cl) (at_ co_krow cl) -> mcols Vh = k0 ->
  (forall f m', mval m' Vh f -> (forall i s c r q, nth_error l i = Some s -> nth_error cl i = Some c -> r < co_krow c -> q < k0 ->
      f (nsum i (at_ co_krow cl) + r)%nat q = sum (co_kcol c) (fun x => W i r x * mfun m (cb_E s) x q)%F) ->
     lm D m' (Vh :: Ls) -> kb [mblk Vh] m m' -> Q (mrows Vh) m') ->
  wp TT TT (sons l (fun i s off => c <- sget (Some cl) i ;; Vhat1 <- init_sub_amatrix Vh (co_krow c) off k0 0 ;; passert (co_kcol c =? mrows (cb_E s)) ;;;
    addmul_amatrix f1 false (co_C c) false (cb_E s) Vhat1 ;;; Ret (off + co_krow c)) 0) m Q.
Proof.
  intros HL H0 Hlen Hs Er Ec HQ. assert (WV : mwf Vh) by apply (lm_own _ _ _ Vh HL (or_introl eq_refl)).
  apply (wp_sonsS (fun i off m1 => off = nsum i (at_ co_krow cl) /\ lm D m1 (Vh :: Ls) /\ kb [mblk Vh] m m1 /\ exists f, mval m1 Vh f /\
    (forall r q, off <= r -> f r q = f0) /\
    forall j s c r q, j < i -> nth_error l j = Some s -> nth_error cl j = Some c -> r < co_krow c -> q < k0 ->
      f (nsum j (at_ co_krow cl) + r)%nat q = sum (co_kcol c) (fun x => W j r x * mfun m (cb_E s) x q)%F)).
  - split; [reflexivity|]. split; [exact HL|]. split; [apply kb_refl|]. exists (fun _ _ => f0). split; [exact H0|]. split; [reflexivity|]. intros j s c r q Hj. lia.
  - intros i s off m1 Hi (Eo & HL1 & K1 & f & Hf & Hz & HV). destruct (nth_in _ _ _ Hi) as [Hi1 Hi2]. destruct (nth_ex cl i) as [c Hc]; [lia|].
    rewrite (sget_some _ _ _ Hc). cbn [bind]. destruct (Hs i s c Hi Hc) as (S1 & S2 & S3 & S4 & S5 & S6 & S7 & S8).
    assert (Hb : off + co_krow c <= mrows Vh). { rewrite Er, Eo. pose proof (nsum_in (at_ co_krow cl) i (length cl) ltac:(lia)) as HX. rewrite (at_nth co_krow cl i c Hc) in HX. exact HX. }
    assert (NE : mblk (cb_E s) <> mblk Vh) by (apply (lm_neq _ _ _ _ _ HL); exact S1).
    assert (NC : mblk (co_C c) <> mblk Vh) by (apply (lm_neq _ _ _ _ _ HL); exact S2).
    assert (HE1 : mval m1 (cb_E s) (mfun m (cb_E s))). { eapply mval_kb; [exact S7|exact K1|eapply kb_blk; [exact HL|right; exact S1]|]. intros [E|[]]. congruence. }
    assert (HC1 : mval m1 (co_C c) (W i)). { eapply mval_kb; [exact S8|exact K1|eapply kb_blk; [exact HL|right; exact S2]|]. intros [E|[]]. congruence. }
    apply wp_bind. apply wp_init_sub_amatrix; [exact Hb|lia|]. apply wp_bind, wp_passert; [apply Nat.eqb_eq; exact S5|]. apply wp_bind.
    eapply (wp_addmul_amatrix RL TT TT f1 false (co_C c) false (cb_E s) _ (W i) (mfun m (cb_E s))).
    { apply mwf_subm; [exact WV|exact Hb]. } { exact HC1. } { exact HE1. } { apply mval_subm; [exact Hf|exact Hb|lia]. }
    { intros a Ha Hb'. apply inm_blk in Ha, Hb'. cbn in Hb'. congruence. } { intros a Ha Hb'. apply inm_blk in Ha, Hb'. cbn in Hb'. congruence. }
    { apply TTr. } { apply TTr. } { apply TTw. } { cbn. lia. } { cbn. lia. } { lia. }
    cbn [tr]. rewrite S3, S4, S6. intros m2 HB Kk.
    pose proof (mval_subm_back m1 m2 Vh f _ off (co_krow c) 0 k0 WV Hf Hb ltac:(lia) HB Kk) as HV2.
    destruct (lm_writep D m1 m2 _ Vh Vh _ HL1 (or_introl eq_refl) (fun a Ha => Ha) (keeps_subm m1 m2 Vh off (co_krow c) 0 k0 Hb ltac:(lia) Kk) HV2) as [HL2 K2].
    cbn [wp]. split; [cbn; rewrite (at_nth co_krow cl i c Hc); lia|]. split; [exact HL2|].
    split; [eapply kb_trans; [exact K1|exact K2|auto|]; intros b [<-|[]]; left; left; reflexivity|]. eexists. split; [exact HV2|]. cbv beta. split.
    + intros r q Hr. bsplit; try lia; apply Hz; lia.
    + intros j s1 c1 r q Hj Hj1 Hj2 Hr Hq. destruct (Nat.eq_dec j i) as [->|Hne].
      * assert (s1 = s) by congruence. assert (c1 = c) by congruence. subst s1 c1. rewrite <- Eo.
        destruct (Nat.leb_spec off (off + r)); [|lia]. destruct (Nat.ltb_spec (off + r) (off + co_krow c)); [|lia]. destruct (Nat.ltb_spec q (0 + k0)); [|lia]. cbn [andb Nat.leb].
        replace (off + r - off) with r by lia. replace (q - 0) with q by lia. destruct (Nat.ltb_spec r (co_krow c)); [|lia]. destruct (Nat.ltb_spec q k0); [|lia]. cbn [andb plus].
        change (0 <=? q) with true. cbn [andb]. rewrite Hz by lia. set (x1 := sum _ _). clearbody x1. ring.
      * assert (Hlt : nsum j (at_ co_krow cl) + r < off). { rewrite Eo. pose proof (nsum_in (at_ co_krow cl) j i ltac:(lia)) as HX. rewrite (at_nth co_krow cl j c1 Hj2) in HX. lia. }
        destruct (Nat.leb_spec off (nsum j (at_ co_krow cl) + r)); [lia|]. cbn [andb]. apply HV; auto. lia.
  - intros off m1 (Eo & HL1 & K1 & f & Hf & Hz & HV). rewrite <- Hlen, <- Er in Eo. subst off. apply (HQ f m1); auto. intros i s c r q Hi Hc Hr Hq. apply (HV i s c r q); auto. apply nth_in in Hi. lia.
Qed.

Theorem wp_weight cb : weight_ok O cb.
Proof.
  induction cb as [cb IH] using cb_rect'. destruct cb as [t k0 kt kb0 V E l Z]. destruct l as [|s0 l0]; [apply weight_leaf|].
  intros D co Ls m Q Hok Hi Hfor Hin HL HQ. rewrite weight_eq_node. set (l := s0 :: l0) in *. set (cb := CB t k0 kt kb0 V E l Z) in *. cbn [cb_son] in IH.
  destruct (cofor_inv _ _ Hfor) as (D1 & D2 & D3 & D4). change (cb_son cb) with l in D3, D4.
  rewrite D3, Nat.eqb_refl. cbn [bind passert]. apply wp_bind.
  destruct co as [ct cr cc C cs]. cbn [co_C co_krow co_kcol co_son] in *. set (co := CO ct cr cc C cs) in *.
  change (wp TT TT (weight_sons O co (length (@nil cbx)) l) m (fun a m' => wp TT TT (weight_node O cb co a) m' Q)).
  assert (HinS : forall s, In s l -> incl (cbmats s) Ls). { intros s Hs A HA. apply Hin. eapply (son_mats cb s); [exact Hs|exact HA]. }
  eapply (wp_wsons O D m co (C :: Ls) l) with (bs := []); [exact IH| |exact D3|exact D4|reflexivity|constructor|apply keeps_refl| | |apply kb_refl|].
  { intros s Hs. split; [apply (cbok_son cb s Hok Hs)|]. split; [eapply cbinit_son; [exact Hi|exact Hs]|]. intros A HA. right. apply (HinS s Hs A HA). }
  { eapply lm_perm; [|exact HL]. unfold co. cbn [length skipn co_son comats]. perm. }
  { intros b []. }
  cbn [app]. intros cl m1 HF HS1 HL1 HN1 K1. pose proof (kb_next _ _ _ K1) as N1. change (co_son co) with cs in *.
  assert (Hlen : length cl = length l) by (apply Forall2_nth in HF as (F1 & _); exact F1).
  unfold weight_node. cbv zeta. rewrite (fold_at co_krow). cbn [plus]. change (cb_k cb) with k0. change (cb_son cb) with l. change (co_setsons co cl) with (CO ct cr cc C cl).
  set (mm := nsum (length cl) (at_ co_krow cl)).
  apply wp_bind. eapply wp_init_kb; [exact HL1|]. intros Vh m2 EVh HL2 K2. pose proof (kb_next _ _ _ K2) as N2.
  assert (BVh : mblk Vh = next m1) by (rewrite EVh; reflexivity). assert (RVh : mrows Vh = mm) by (rewrite EVh; reflexivity). assert (CVh : mcols Vh = k0) by (rewrite EVh; reflexivity). clear EVh.
  destruct (lm_own _ _ _ Vh HL2 (or_introl eq_refl)) as (_ & _ & WV & AV).
  apply wp_bind. apply wp_clear_amatrix; [exact WV|exact AV|apply TTw|]. intros m3 HV3 Kk3. destruct (lm_writep D m2 m3 _ Vh Vh _ HL2 (or_introl eq_refl) (fun a Ha => Ha) Kk3 HV3) as [HL3 K3]. pose proof (kb_next _ _ _ K3) as N3.
  (* the sons' weights *)
  assert (HW : exists Wi Qi : nat -> nat -> nat -> K, forall i, i < length l -> forall s c, nth_error l i = Some s -> nth_error cl i = Some c ->
    co_kcol c = cb_k s /\ mval m1 (co_C c) (Wi i) /\ orthonormal (cb_size s) (co_krow c) (Qi i) /\
    (ex -> forall p q, p < cb_size s -> q < cb_k s -> cbmat m s p q = sum (co_krow c) (fun r => Qi i p r * Wi i r q)%F)).
  { destruct (choice_lt (fun i (x : (nat -> nat -> K) * (nat -> nat -> K)) => forall s c, nth_error l i = Some s -> nth_error cl i = Some c ->
      co_kcol c = cb_k s /\ mval m1 (co_C c) (fst x) /\ orthonormal (cb_size s) (co_krow c) (snd x) /\
      (ex -> forall p q, p < cb_size s -> q < cb_k s -> cbmat m s p q = sum (co_krow c) (fun r => snd x p r * fst x r q)%F)) (fun _ _ => f0, fun _ _ => f0) (length l)) as (f & Hf).
    - intros i Hi'. destruct (nth_ex l i Hi') as [s Hs]. destruct (Forall2_nth_l _ _ _ _ _ HF Hs) as (c & Hc & HW & _). destruct HW as [s c W Qm O1 O2 O3 O4 O5 O6 O7]. exists (W, Qm).
      intros s' c' Hs' Hc'. assert (s' = s) by congruence. assert (c' = c) by congruence. subst s' c'. cbn. auto.
    - exists (fun i => fst (f i)), (fun i => snd (f i)). exact Hf. }
  destruct HW as (Wi & Qi & HW). apply wp_bind.
  assert (InC : forall c, In c cl -> In (co_C c) (flat_map comats cl)). { intros c Hc. apply in_flat_map. exists c. split; [exact Hc|]. destruct c. left. reflexivity. }
  assert (S13 : same (flat_map comats cl ++ C :: Ls) m1 m3).
  { eapply same_kb; [eapply (kb_trans [] [mblk Vh] [] m1 m2 m3); [exact K2|exact K3|auto|intros b [<-|[]]; right; lia]|]. intros A HA. split; [|intros []]. eapply kb_blk; [exact HL1|exact HA]. }
  assert (Hm3E : forall s, In s l -> forall i j, mfun m3 (cb_E s) i j = mfun m (cb_E s) i j).
  { intros s Hs i j. transitivity (mfun m1 (cb_E s) i j).
    - eapply (same_mfun (flat_map comats cl ++ C :: Ls)); [exact S13|]. apply in_or_app. right. right. apply (HinS s Hs), in_E.
    - eapply (same_mfun (C :: Ls)); [exact HS1|]. right. apply (HinS s Hs), in_E. }
  eapply (wp_fillW D m3 Vh l cl k0 _ Wi); [exact HL3|exact HV3|exact Hlen| |exact RVh|exact CVh|].
  { intros i s c Hs Hc. destruct (nth_in _ _ _ Hs) as [Hi1 Hi2]. destruct (HW i Hi1 s c Hs Hc) as (A1 & A2 & A3 & A4). destruct (cbok_son cb s Hok Hi2) as (B1 & B2 & B3).
    apply Forall2_nth in HF as (_ & F2). destruct (F2 i s c Hs Hc) as (_ & Hf). destruct (cofor_inv _ _ Hf) as (E1 & E2 & _).
    split; [apply in_or_app; right; right; apply (HinS s Hi2), in_E|]. split; [apply in_or_app; left; apply InC; eapply nth_error_In; exact Hc|]. split; [exact E1|]. split; [exact E2|]. split; [congruence|]. split; [exact B3|]. split.
    - intros i' j' Hi' Hj'. rewrite (Hm3E s Hi2). assert (HE : mval m (cb_E s) (mfun m (cb_E s))) by (eapply (cbinit_E m cb); [exact Hi|exact Hi2]).
      pose proof (same_mval (C :: Ls) m m1 _ _ HE HS1 (or_intror (HinS s Hi2 _ (in_E s))) i' j' Hi' Hj') as HX.
      rewrite (proj2 S13); [exact HX|]. intros Hn. apply Hn. apply in_map_iff. exists (cb_E s). split; [reflexivity|]. apply in_or_app. right. right. apply (HinS s Hi2), in_E.
    - eapply same_mval; [exact A2|exact S13|]. apply in_or_app. left. apply InC. eapply nth_error_In; exact Hc. }
  intros f m4 HV4 Hf HL4 K4. pose proof (kb_next _ _ _ K4) as N4. rewrite RVh. apply wp_bind, wp_passert; [apply Nat.eqb_refl|].
  eapply (wp_weight_factor L O H D m4 Vh ct cr cc C cl (flat_map comats cl ++ Ls) f k0); [eapply lm_perm; [|exact HL4]; perm|exact HV4|exact CVh|exact D1|exact D2|].
  rewrite RVh. set (k := Nat.min mm k0). intros C' F tv m5 HFc C1 C2 C3 HL5 C4 K5.
  assert (S35 : same (flat_map comats cl ++ Ls) m1 m5).
  { eapply keeps_trans; [eapply same_sub; [exact S13|]|eapply keeps_trans].
    - intros A HA. apply in_app_or in HA as [HA|HA]; apply in_or_app; [left|right; right]; exact HA.
    - eapply (same_lm D (flat_map comats cl ++ Ls) [Vh] [C]); [eapply lm_perm; [|exact HL3]; perm|exact K4|apply incl_refl].
    - eapply (same_lm D (flat_map comats cl ++ Ls) [Vh; C] []); [eapply lm_perm; [|exact HL4]; perm|exact K5|apply incl_refl]. }
  assert (Hsz : cb_size cb = nsum (length l) (at_ cb_size l)) by (apply (cbok_size cb Hok); discriminate).
  apply HQ.
  - apply (weight_of_intro ex m m5 cb (CO ct k k0 C' cl) (up F) (blockdiag (length l) (at_ cb_size l) (at_ co_krow cl) Qi (qmat mm F tv k))).
    + reflexivity.
    + reflexivity.
    + exact C1.
    + cbn [co_krow]. rewrite Hsz. apply (blockdiag_orth L).
      * intros i Hi'. destruct (nth_ex l i Hi') as [s Hs]. destruct (nth_ex cl i) as [c Hc]; [lia|]. rewrite (at_nth cb_size _ _ _ Hs), (at_nth co_krow _ _ _ Hc). apply (HW i Hi' s c Hs Hc).
      * rewrite <- Hlen. apply (qrfac_orth O _ _ _ _ _ HFc).
    + intros HX. cbn [co_krow]. apply (weight_prod L m cb (at_ co_krow cl) Qi Wi f (qmat mm F tv k) (up F) k).
      * exact Hsz.
      * intros i s Hs. change (cb_son cb) with l in Hs. destruct (nth_in _ _ _ Hs) as [Hi1 Hi2]. destruct (nth_ex cl i) as [c Hc]; [lia|]. destruct (HW i Hi1 s c Hs Hc) as (A1 & A2 & A3 & A4). rewrite (at_nth co_krow _ _ _ Hc). split; [apply A4, HX|].
        intros r q Hr Hq. rewrite (Hf i s c r q Hs Hc Hr Hq), A1. apply sum_ext. intros x _. rewrite (Hm3E s Hi2). reflexivity.
      * change (length (cb_son cb)) with (length l). rewrite <- Hlen. intros r q Hr Hq. apply (qrfac_thin L O _ _ _ _ _ HFc HX r q Hr Hq).
    + exact Hlen.
    + intros i s c Hs Hc. apply Forall2_nth in HF as (_ & F2). destruct (F2 i s c Hs Hc) as (W1 & _). eapply weight_same; [exact W1|exact S35|]. intros A HA. apply in_or_app. left. apply in_flat_map. exists c. split; [eapply nth_error_In; exact Hc|exact HA].
  - constructor; cbn [co_C co_krow co_kcol co_son]; [exact C2|exact C3|exact Hlen|]. intros i s c Hs Hc. apply Forall2_nth in HF as (_ & F2). apply (F2 i s c Hs Hc).
  - reflexivity.
  - exact HL5.
  - intros b Hb. cbn [comats map] in Hb. destruct Hb as [<-|Hb].
    + destruct C4 as [->|C4]; [left; left; reflexivity|right; lia].
    + apply HN1 in Hb as [Hb|Hb]; [left; right; exact Hb|right; exact Hb].
  - assert (Y1 : kb (map mblk (comats co)) m m1) by (eapply kb_mono; [exact K1|]; intros b Hb; left; right; exact Hb).
    assert (Y2 : kb (map mblk (comats co)) m m2) by (eapply kb_trans; [exact Y1|exact K2|auto|intros b []]).
    assert (Y3 : kb (map mblk (comats co)) m m3) by (eapply kb_trans; [exact Y2|exact K3|auto|intros b [<-|[]]; right; lia]).
    assert (Y4 : kb (map mblk (comats co)) m m4) by (eapply kb_trans; [exact Y3|exact K4|auto|intros b [<-|[]]; right; lia]).
    eapply kb_trans; [exact Y4|exact K5|auto|]. intros b [<-|[<-|[]]]; [right; lia|left; left; reflexivity].
Qed.
End P.
