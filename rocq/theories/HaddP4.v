(** * Addition of H-matrices *)
From Coq Require Import Arith Lia List Bool Permutation Ring.
From Verif Require Import Fld Ord Prog Arr View Loop Line Spec Cluster Block BlockP Avector Amatrix AvectorP AmatrixP AmatrixP2 Rkmatrix RkSpec RkP Factor FactorSpec Chol CholSpec Qr QrSpec
  CbmSpec CbmP CopSpec OrthoP SepP SepP2 Htrunc HtSpec HtP HtP2 HtP3 HtP4 Hmatrix HmSpec HmP HmP4 HlibSpec HaddSpec HmvP Hadd MgP MgP2 MgP3 HaddP HaddP2 HaddP3.
Import ListNotations.

Section P.
Context {K : fops} {G : ofops} (L : field_laws K) (O : qops K) (H : qlaws O) (HZ : exact_zero O).
Context (orth : Prop) (good : nat -> (nat -> K) -> Prop) (chosen : nat -> (nat -> K) -> nat -> Prop) (dom : nat -> nat -> Prop).
Context (svd : mat -> vec -> mat -> mat -> prog K unit) (rank : vec -> prog K nat) (Hsvd : svd_ok orth good dom svd) (Hrank : rank_ok good chosen rank).
Context (Hdom : forall r c, dom r c) (Hless : forall n s k, chosen n s k -> forall l, k <= l < n -> s l = f0).
Notation RL := (fl_ring K L).
Add Ring KringHad4 : (rl_ring K (fl_ring K L)).
Local Notation hmx := (hmatrix G).
Implicit Types (m : mem K) (h s t : hmx) (l : list hmx) (D E : nat -> nat -> K) (r src : rkm) (rc cc : cptr G).

(** ** Merging the parts *)
Definition held m r (R C : nat) D : Prop := rkown m r /\ rkrep m r D /\ mrows (rk_A r) = R /\ mrows (rk_B r) = C.
Lemma held_moves m (F F' : addr -> Prop) m' r R C D : moves m F F' m' -> held m r R C D -> disj (rkblk r) F -> held m' r R C D.
Proof.
  intros HM (H1 & H2 & H3) Hd. split; [eapply rkown_moves; eassumption|]. split; [|exact H3]. eapply rkrep_moves; [exact HM|exact H2|].
  intros a Ha. apply Hd. destruct Ha as [Ha|Ha]; apply inm_blk in Ha; [left|right]; exact Ha.
Qed.
Lemma held_ext m r R C D E : held m r R C D -> (forall i j, i < R -> j < C -> E i j = D i j) -> held m r R C E.
Proof. intros (H1 & H2 & H3 & H4) HE. split; [exact H1|]. split; [|auto]. eapply rkrep_ext; [exact H2|]. rewrite H3, H4. exact HE. Qed.
Lemma wp_mstep (colmerge : bool) src r m R C D E rs cs (Q : rkm -> mem K -> Prop) : held m r R C D -> held m src rs cs E -> disj (rkblk src) (rkblk r) ->
  (if colmerge then C = cs else R = rs) ->
  (forall r' m', held m' r' (if colmerge then R + rs else R) (if colmerge then C else C + cs) (if colmerge then below R D E else aside C D E) -> moves m (rkblk r) (rkblk r') m' -> Q r' m') ->
  wp TT TT (merge_rkmatrix O svd rank colmerge src r) m Q.
Proof.
  intros (H1 & H2 & H3 & H4) (G1 & G2 & G3 & G4) Hd He HQ. apply wp_next.
  assert (HA : MgP3.apart m r src).
  { destruct G1 as (_ & _ & _ & B1 & B2 & _). split; [exact B1|]. split; [exact B2|]. split; intros HI.
    - apply (Hd (mblk (rk_A src), 0)); [left; reflexivity|]. destruct HI as [HI|[HI|[]]]; [left|right]; symmetry; exact HI.
    - apply (Hd (mblk (rk_B src), 0)); [right; reflexivity|]. destruct HI as [HI|[HI|[]]]; [left|right]; symmetry; exact HI. }
  eapply (wp_merge L O H HZ orth good chosen dom svd rank Hsvd Hrank colmerge src r m D E); [exact H1|exact H2|exact G2|exact HA| |].
  { rewrite H3, H4, G3, G4. destruct colmerge; (split; [exact He|apply Hdom]). }
  rewrite H3, H4, G3, G4. intros r' m' HP HN. destruct colmerge; destruct HP as (D' & P1 & P2 & P3 & P4 & P5); apply HQ.
  - split; [apply P5|]. split; [|auto]. eapply rkrep_ext; [exact P1|]. intros i j Hi Hj. symmetry. apply (truncated_exact L orth good chosen Hless _ _ _ _ _ P4); lia.
  - apply replaced_moves; [exact HN|exact P5].
  - split; [apply P5|]. split; [|auto]. eapply rkrep_ext; [exact P1|]. intros i j Hi Hj. symmetry. apply (truncated_exact L orth good chosen Hless _ _ _ _ _ P4); lia.
  - apply replaced_moves; [exact HN|exact P5].
Qed.
Lemma wp_son_r {A} l k rc cc r ds m (f : rkm -> prog K A) (Q : A -> mem K -> Prop) : nth_error l k = Some (HM rc cc (Some r) None None 0 0 ds) -> wp TT TT (f r) m Q -> wp TT TT (r1 <- son_r (Some l) k ;; f r1) m Q.
Proof. intros Hk HQ. unfold son_r. apply wp_bind. apply wp_bind. rewrite (sget_some _ _ _ Hk). cbn [wp hm_r]. exact HQ. Qed.
Lemma wp_dup_h r m R C D (Q : rkm -> mem K -> Prop) : held m r R C D -> (forall r' m', held m' r' R C D -> moves m nowhere (rkblk r') m' -> Q r' m') -> wp TT TT (dup_rkmatrix r) m Q.
Proof.
  intros (H1 & H2 & H3 & H4) HQ. pose proof H1 as (_ & _ & _ & B1 & B2 & _). eapply wp_dup; [exact H2|exact B1|exact B2|]. intros r' m' A1 A2 A3 A4 A5. apply HQ; [|exact A5].
  split; [exact A2|]. split; [exact A1|]. split; lia.
Qed.
Lemma wp_drop_h r m R C D (Q : unit -> mem K -> Prop) : held m r R C D -> (forall m', moves m (rkblk r) nowhere m' -> Q tt m') -> wp TT TT (uninit_rkmatrix r) m Q.
Proof. intros (H1 & H2 & H3 & H4) HQ. eapply wp_drop; eassumption. Qed.
Lemma held_blk m r R C D a : held m r R C D -> rkblk r a -> fst a < next m.
Proof. intros ((_ & _ & _ & B1 & B2 & _) & _) [E0|E0]; rewrite E0; assumption. Qed.

(** The parts in row [i] and column [j] *)
Section Merge.
Context (l : list hmx) (rs cs : nat) (hs ws : nat -> nat) (D : nat -> nat -> K) (m : mem K).
Context (Hrs : 0 < rs) (Hcs : 0 < cs) (Hl : length l = rs * cs).
Context (Hp : forall i j s, i < rs -> j < cs -> nth_error l (i + j * rs) = Some s -> exists rc cc r ds, s = HM rc cc (Some r) None None 0 0 ds /\ held m r (hs i) (ws j) (fun p q => D (nsum i hs + p) (nsum j ws + q))).
Lemma part_get i j : i < rs -> j < cs -> exists rc cc r ds, nth_error l (i + j * rs) = Some (HM rc cc (Some r) None None 0 0 ds) /\ held m r (hs i) (ws j) (fun p q => D (nsum i hs + p) (nsum j ws + q)).
Proof.
  intros Hi Hj. destruct (nth_ex l (i + j * rs) ltac:(rewrite Hl; apply pos_lt; lia)) as (s & Hs). destruct (Hp i j s Hi Hj Hs) as (rc & cc & r & ds & -> & HH). exists rc, cc, r, ds. auto.
Qed.
(** A source from before is still there and is separate from new storage. *)
Lemma old_held (F : addr -> Prop) m1 src R C E : moves m nowhere F m1 -> held m src R C E -> held m1 src R C E /\ disj (rkblk src) F.
Proof.
  intros HM HH. split; [eapply held_moves; [exact HM|exact HH|apply disj_nowhere]|]. intros a Ha Hb. pose proof (held_blk _ _ _ _ _ _ HH Ha). pose proof (moves_new _ _ _ _ HM Hb). lia.
Qed.
(** One column of parts *)
Lemma wp_mcol j m0 (F : addr -> Prop) (Q : rkm -> mem K -> Prop) {A} (k : rkm -> prog K A) (Q1 : A -> mem K -> Prop) : j < cs -> moves m nowhere F m0 ->
  (forall r m1, held m1 r (nsum rs hs) (ws j) (fun p q => D p (nsum j ws + q)) -> moves m0 nowhere (rkblk r) m1 -> wp TT TT (k r) m1 Q1) ->
  wp TT TT (s1 <- son_r (Some l) (j * rs) ;; r1 <- dup_rkmatrix s1 ;; r1 <- forS 1 (rs - 1) (fun i r1 => s1 <- son_r (Some l) (i + j * rs) ;; merge_rkmatrix O svd rank true s1 r1) r1 ;; k r1) m0 Q1.
Proof.
  intros Hj HM HQ. destruct (part_get 0 j ltac:(lia) Hj) as (rc & cc & s0 & ds & Hs0 & HH0). eapply wp_son_r; [exact Hs0|]. destruct (old_held _ _ _ _ _ _ HM HH0) as [H1 _].
  apply wp_bind. eapply wp_dup_h; [exact H1|]. intros r1 m1 HR HMv. apply wp_bind.
  apply (wp_forS (fun i r m1 => held m1 r (nsum i hs) (ws j) (fun p q => D p (nsum j ws + q)) /\ moves m0 nowhere (rkblk r) m1)).
  - split; [|exact HMv]. exact HR.
  - intros i r m2 [_ Hi] [HR2 HM2]. destruct (part_get i j ltac:(lia) Hj) as (rc' & cc' & s1 & ds' & Hs1 & HH1). eapply wp_son_r; [exact Hs1|].
    destruct (old_held _ _ _ _ _ _ HM HH1) as [H2 _].
    assert (H3 : held m2 s1 (hs i) (ws j) (fun p q => D (nsum i hs + p) (nsum j ws + q))) by (eapply held_moves; [exact HM2|exact H2|apply disj_nowhere]).
    eapply wp_mstep; [exact HR2|exact H3| |reflexivity|].
    { intros a Ha Hb. pose proof (held_blk _ _ _ _ _ _ H2 Ha). pose proof (moves_new _ _ _ _ HM2 Hb). lia. }
    cbn iota. intros r' m3 HR3 HM3. split; [|eapply moves_trans; eassumption]. cbn [nsum]. eapply held_ext; [exact HR3|]. intros p q Hp' Hq. unfold below. destruct (Nat.ltb_spec p (nsum i hs)); [reflexivity|]. f_equal. lia.
  - intros r m2 [HR2 HM2]. replace (1 + (rs - 1)) with rs in HR2 by lia. exact (HQ r m2 HR2 HM2).
Qed.
Lemma wp_merge_all (Rn Cn : nat) (Q : rkm -> mem K -> Prop) rc cc ds : nsum rs hs = Rn -> nsum cs ws = Cn -> csz rc = Rn ->
  (forall r m', held m' r Rn Cn D -> moves m nowhere (rkblk r) m' -> Q r m') -> wp TT TT (merge_hmatrix_rkmatrix O svd rank (HM rc cc None None (Some l) rs cs ds)) m Q.
Proof.
  intros ER EC ERc HQ. unfold merge_hmatrix_rkmatrix. cbn [hm_rsons hm_csons hm_son]. assert (HM0 : moves m nowhere nowhere m) by (apply moves_refl; intros a []).
  destruct (Nat.ltb_spec 1 rs) as [R1|R1]; [destruct (Nat.ltb_spec 1 cs) as [C1|C1]|].
  - unfold hrows. cbn [hm_rc]. unfold init_rkmatrix. apply wp_bind. apply wp_bind. eapply s_init; [apply st_empty|]. intros X m1 RX CX S1. apply wp_bind. eapply s_init; [exact S1|]. intros Y m2 RY CY S2. cbn [wp].
    pose proof (st_own _ _ _ _ _ 1 _ _ _ S2 eq_refl) as (A1 & A2 & A3 & A4). pose proof (st_own _ _ _ _ _ 0 _ _ _ S2 eq_refl) as (B3 & B4 & B5 & B6).
    pose proof (st_neq _ _ _ _ _ 0 1 _ _ S2 eq_refl eq_refl ltac:(lia)) as HN. cbn in HN.
    assert (HO : rkown m2 (Rk X Y 0)) by (repeat split; cbn [rk_A rk_B rk_k]; auto; lia).
    apply (wp_forS (fun j r m1 => held m1 r Rn (nsum j ws) D /\ moves m nowhere (rkblk r) m1)).
    + split.
      * split; [exact HO|]. split; [|split; [cbn; lia|exact RY]]. eapply rkrep_ext; [apply rk_zero; [exact HO|reflexivity]|]. cbn [rk_B]. intros i j _ Hj. lia.
      * eapply moves_ext; [| |exact (st_moves m [] _ _ _ (fun b (X : In b []) => match X with end) ltac:(cbn; intros b [[]|E]; exact E) S2)].
        -- intros a. cbn. unfold nowhere. tauto.
        -- intros a. cbn. unfold rkblk. cbn. intuition congruence.
    + intros j r m3 [_ Hj] [HR3 HM3]. cbn in Hj. eapply (wp_mcol j m3 _ (fun _ _ => True)); [lia|exact HM3|]. intros r1 m4 HR4 HM4.
      pose proof (held_moves _ _ _ _ _ _ _ _ HM4 HR3 (disj_nowhere _)) as HR5. rewrite ER in HR4.
      apply wp_bind. eapply (wp_mstep false); [exact HR5|exact HR4| |reflexivity|].
      { intros a Ha Hb. pose proof (held_blk _ _ _ _ _ _ HR3 Hb). pose proof (moves_new _ _ _ _ HM4 Ha). lia. }
      cbn iota. intros r' m5 HR6 HM6.
      assert (Hd1 : disj (rkblk r1) (rkblk r)).
      { intros a Ha Hb. pose proof (held_blk _ _ _ _ _ _ HR3 Hb). pose proof (moves_new _ _ _ _ HM4 Ha). lia. }
      pose proof (held_moves _ _ _ _ _ _ _ _ HM6 HR4 Hd1) as HR7.
      assert (Hd2 : disj (rkblk r') (rkblk r1)).
      { intros a Ha Hb. destruct (proj1 (proj2 HM6) a Ha) as [X1|X1]; [exact (Hd1 a Hb X1)|]. pose proof (held_blk _ _ _ _ _ _ HR4 Hb). lia. }
      apply wp_bind. eapply wp_drop_h; [exact HR7|]. intros m6 HM7. cbn [wp]. split.
      * cbn [nsum]. eapply held_ext; [eapply held_moves; [exact HM7|exact HR6|exact Hd2]|]. intros p q Hp' Hq. unfold aside. destruct (Nat.ltb_spec q (nsum j ws)); [reflexivity|]. f_equal. lia.
      * eapply moves_trans; [exact HM3|]. eapply (moves_trans _ _ (fun a => rkblk r a \/ rkblk r1 a)).
        { eapply moves_ext; [| |eapply (moves_frame _ _ _ (rkblk r)); [exact HM4|intros a; apply (held_blk _ _ _ _ _ _ HR3)]]; intros a; unfold nowhere; tauto. }
        eapply (moves_trans _ _ (fun a => rkblk r' a \/ rkblk r1 a)).
        { eapply (moves_frame _ _ _ (rkblk r1)); [exact HM6|]. intros a. apply (held_blk _ _ _ _ _ _ HR4). }
        eapply moves_ext; [| |eapply (moves_frame _ _ _ (rkblk r')); [exact HM7|intros a; apply (held_blk _ _ _ _ _ _ HR6)]]; intros a; unfold nowhere; tauto.
    + intros r m3 [HR3 HM3]. cbn [Nat.add] in HR3. rewrite EC in HR3. apply HQ; assumption.
  - assert (E1 : cs = 1) by lia. rewrite E1 in EC.
    destruct (part_get 0 0 ltac:(lia) ltac:(lia)) as (rc0 & cc0 & s0 & ds0 & Hs0 & HH0). eapply wp_son_r; [exact Hs0|].
    apply wp_bind. eapply wp_dup_h; [exact HH0|]. intros r1 m1 HR HMv.
    apply (wp_forS (fun i r m1 => held m1 r (nsum i hs) (ws 0) D /\ moves m nowhere (rkblk r) m1)).
    + split; [|exact HMv]. exact HR.
    + intros i r m2 [_ Hi] [HR2 HM2]. destruct (part_get i 0 ltac:(lia) ltac:(lia)) as (rc' & cc' & s1 & ds' & Hs1 & HH1). rewrite Nat.mul_0_l, Nat.add_0_r in Hs1. eapply wp_son_r; [exact Hs1|].
      destruct (old_held _ _ _ _ _ _ HM2 HH1) as [H2 Hd2].
      eapply wp_mstep; [exact HR2|exact H2|exact Hd2|reflexivity|].
      cbn iota. intros r' m3 HR3 HM3. split; [|eapply moves_trans; eassumption]. cbn [nsum]. eapply held_ext; [exact HR3|]. intros p q Hp' Hq. unfold below. destruct (Nat.ltb_spec p (nsum i hs)); [reflexivity|]. cbn [nsum]. f_equal; lia.
    + intros r m2 [HR2 HM2]. replace (1 + (rs - 1)) with rs in HR2 by lia. apply HQ; [|exact HM2]. rewrite <- ER, <- EC. cbn [nsum Nat.add]. exact HR2.
  - assert (E1 : rs = 1) by lia. rewrite E1 in ER.
    destruct (part_get 0 0 ltac:(lia) ltac:(lia)) as (rc0 & cc0 & s0 & ds0 & Hs0 & HH0). eapply wp_son_r; [exact Hs0|].
    apply wp_bind. eapply wp_dup_h; [exact HH0|]. intros r1 m1 HR HMv.
    apply (wp_forS (fun j r m1 => held m1 r (hs 0) (nsum j ws) D /\ moves m nowhere (rkblk r) m1)).
    + split; [|exact HMv]. exact HR.
    + intros j r m2 [_ Hj] [HR2 HM2]. destruct (part_get 0 j ltac:(lia) ltac:(lia)) as (rc' & cc' & s1 & ds' & Hs1 & HH1). rewrite E1, Nat.mul_1_r, Nat.add_0_l in Hs1. eapply wp_son_r; [exact Hs1|].
      destruct (old_held _ _ _ _ _ _ HM2 HH1) as [H2 Hd2].
      eapply (wp_mstep false); [exact HR2|exact H2|exact Hd2|reflexivity|].
      cbn iota. intros r' m3 HR3 HM3. split; [|eapply moves_trans; eassumption]. cbn [nsum]. eapply held_ext; [exact HR3|]. intros p q Hp' Hq. unfold aside. destruct (Nat.ltb_spec q (nsum j ws)); [reflexivity|]. cbn [nsum]. f_equal; lia.
    + intros r m2 [HR2 HM2]. replace (1 + (cs - 1)) with cs in HR2 by lia. apply HQ; [|exact HM2]. rewrite <- ER, <- EC. cbn [nsum Nat.add]. exact HR2.
Qed.
End Merge.
End P.
