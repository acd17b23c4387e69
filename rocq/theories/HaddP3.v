(** * Splitting and merging of H-matrices *)
From Coq Require Import Arith Lia List Bool Permutation Ring.
From Verif Require Import Fld Ord Prog Arr View Loop Line Spec Cluster Block Avector Amatrix AvectorP AmatrixP AmatrixP2 Rkmatrix RkSpec RkP Factor FactorSpec Chol CholSpec Qr QrSpec
  CbmSpec CbmP CopSpec OrthoP SepP SepP2 Htrunc HtSpec HtP HtP2 HtP3 HtP4 Hmatrix HmSpec HmP HmP4 HaddSpec HmvP Hadd MgP MgP2 MgP3 HaddP.
Import ListNotations.

Section Storage.
Context {K : fops} {G : ofops}.
Local Notation hmx := (hmatrix G).
Implicit Types (m : mem K) (h s t : hmx) (l : list hmx) (r : rkm).

Lemma st_moves m bs (D : nat -> Prop) (q : list ent) m' : (forall b, In b bs -> b < next m) -> (forall b, In b bs \/ next m <= b -> D b) -> st m bs D q m' ->
  moves m (fun a => In (fst a) bs) (fun a => In (fst a) (map mblk (map emat q))) m'.
Proof.
  intros HB HD [(HO & _ & _ & HF) _ HK HOld]. split; [eapply kb_next; exact HK|]. split; [|split; [|split]].
  - intros a Ha. apply in_map_iff in Ha as (A & <- & Ha). apply in_map_iff in Ha as (e & <- & He). apply HOld, He.
  - intros a Ha. apply in_map_iff in Ha as (A & E & Ha). rewrite <- E. rewrite Forall_forall in HO. apply (HO A Ha).
  - intros a Ha Hn. apply (proj2 HK). cbv beta. intros [X|X]; [contradiction|lia].
  - intros a Ha Hn. apply HF; [apply HD; exact Ha|exact Hn].
Qed.
Lemma st_empty m : st m [] (fun b => next m <= b) ([] : list (@ent K)) m.
Proof.
  apply st_start; [|intros e []|intros e []]. split; [constructor|]. split; [constructor|]. split; [auto|]. intros a Ha _. apply get_next, Ha.
Qed.
Lemma wp_dup (s1 : rkm) m D (Q : rkm -> mem K -> Prop) : rkrep m s1 D -> mblk (rk_A s1) < next m -> mblk (rk_B s1) < next m ->
  (forall r m', rkrep m' r D -> rkown m' r -> mrows (rk_A r) = mrows (rk_A s1) -> mrows (rk_B r) = mrows (rk_B s1) -> moves m nowhere (rkblk r) m' -> Q r m') ->
  wp TT TT (dup_rkmatrix s1) m Q.
Proof.
  intros (A & B & HA & HB & CA & CB & HD) B1 B2 HQ. unfold dup_rkmatrix, init_rkmatrix. apply wp_bind. apply wp_bind.
  eapply s_init; [apply st_empty|]. intros X m1 RX CX S1. apply wp_bind. eapply s_init; [exact S1|]. intros Y m2 RY CY S2. cbn [wp].
  unfold copy_rkmatrix. cbn [rk_A rk_B rk_k]. apply wp_bind, wp_assert; [apply Nat.eqb_eq; lia|]. apply wp_bind, wp_assert; [apply Nat.eqb_eq; lia|].
  rewrite Nat.eqb_refl. apply wp_bind. cbn [wp rk_A rk_B].
  assert (NX : next m <= mblk X) by (destruct (st_old _ _ _ _ _ S2 _ (or_intror (or_introl eq_refl))) as [[]|E]; exact E).
  assert (NY : next m <= mblk Y) by (destruct (st_old _ _ _ _ _ S2 _ (or_introl eq_refl)) as [[]|E]; exact E).
  apply wp_bind. eapply (s_copy 1 false); [exact S2|reflexivity|eapply st_extval; [exact S2|exact HA|exact B1|intros []]|lia|cbn iota; lia|cbn iota; lia|]. cbn [setn]. intros m3 S3.
  apply wp_bind. eapply (s_copy 0 false); [exact S3|reflexivity|eapply st_extval; [exact S3|exact HB|exact B2|intros []]|lia|cbn iota; lia|cbn iota; lia|]. cbn [setn]. intros m4 S4. cbn [wp].
  pose proof (st_own _ _ _ _ _ 1 _ _ _ S4 eq_refl) as (A1 & A2 & A3 & A4). pose proof (st_own _ _ _ _ _ 0 _ _ _ S4 eq_refl) as (B3 & B4 & B5 & B6).
  pose proof (st_neq _ _ _ _ _ 0 1 _ _ S4 eq_refl eq_refl ltac:(lia)) as HN. cbn in HN.
  apply HQ; cbn [rk_A rk_B rk_k].
  - exists A, B. cbn [rk_A rk_B rk_k]. split; [eapply (st_mval _ _ _ _ _ 1); [exact S4|reflexivity]|]. split; [eapply (st_mval _ _ _ _ _ 0); [exact S4|reflexivity]|]. split; [lia|]. split; [lia|].
    intros i j Hi Hj. apply HD; lia.
  - repeat split; cbn [rk_A rk_B rk_k]; auto; lia.
  - lia.
  - lia.
  - eapply moves_ext; [| |exact (st_moves m [] _ _ _ (fun b (X : In b []) => match X with end) ltac:(cbn; intros b [[]|E]; exact E) S4)].
    + intros a. cbn. unfold nowhere. tauto.
    + intros a. cbn. unfold rkblk. cbn. intuition congruence.
Qed.
Lemma wp_drop r m D (Q : unit -> mem K -> Prop) : rkrep m r D -> rkown m r -> (forall m', moves m (rkblk r) nowhere m' -> Q tt m') -> wp TT TT (uninit_rkmatrix r) m Q.
Proof.
  intros (A & B & HA & HB & _) HO HQ. pose proof (rst_start _ _ _ _ HO HA HB) as S0. destruct HO as (_ & _ & _ & B1 & B2 & _). unfold uninit_rkmatrix.
  apply wp_bind. eapply (s_uninit 1); [exact S0|reflexivity|]. cbn [deln]. intros m1 S1. eapply (s_uninit 0); [exact S1|reflexivity|]. cbn [deln]. intros m2 S2. apply HQ.
  eapply moves_ext; [| |refine (st_moves m (rbs r) _ _ _ _ _ S2)].
  - intros a. unfold rkblk, rbs. cbn. intuition congruence.
  - intros a. cbn. unfold nowhere. tauto.
  - unfold rbs. cbn. intros b [<-|[<-|[]]]; assumption.
  - unfold rbs, rD. cbn. intuition congruence.
Qed.
Lemma replaced_moves m r m' r' : next m <= next m' -> replaced m r m' r' -> moves m (rkblk r) (rkblk r') m'.
Proof.
  intros HN ((_ & _ & _ & B1 & B2 & _) & A1 & A2 & A3). split; [exact HN|]. split; [exact A1|]. split; [|split; assumption]. intros a [E|E]; rewrite E; assumption.
Qed.
Lemma moves_new m (F : addr -> Prop) m' a : moves m nowhere F m' -> F a -> next m <= fst a.
Proof. intros (_ & A2 & _) HF. destruct (A2 a HF) as [[]|E]; exact E. Qed.
Lemma moves_lt m (F F' : addr -> Prop) m' a : moves m F F' m' -> F' a -> fst a < next m'.
Proof. intros (_ & _ & A3 & _). apply A3. Qed.
Lemma disj_nowhere (F : addr -> Prop) : disj F nowhere.
Proof. intros a _ []. Qed.
Lemma moves_le m (F F' : addr -> Prop) m' : moves m F F' m' -> next m <= next m'.
Proof. intros (A & _). exact A. Qed.
(** New storage beside old storage *)
Lemma moves_add m (F1 F2 : addr -> Prop) m1 m2 : moves m nowhere F1 m1 -> moves m1 nowhere F2 m2 -> moves m nowhere (fun a => F1 a \/ F2 a) m2.
Proof.
  intros M1 M2. eapply moves_trans; [exact M1|]. eapply moves_ext; [| |eapply (moves_frame _ _ _ F1); [exact M2|intros a; apply (moves_lt _ _ _ _ _ M1)]].
  - intros a. unfold nowhere. tauto.
  - intros a. tauto.
Qed.

(** ** Deletion of the parts *)
Definition rkleaf s : Prop := exists rc cc r ds, s = HM rc cc (Some r) None None 0 0 ds.
Definition view s : Prop := exists rc cc f ds, s = HM rc cc None (Some f) None 0 0 ds /\ mown f = false.
Lemma wp_del_rkleaf s m D (Q : unit -> mem K -> Prop) : rkleaf s -> hrep m s D -> hmut m s -> (forall m', moves m (hfp s) nowhere m' -> Q tt m') -> wp TT TT (del_hmatrix s) m Q.
Proof.
  intros (rc & cc & r & ds & ->) HR HU HQ. inversion HR; subst. inversion HU; subst. cbn [del_hmatrix bind]. eapply wp_drop; [eassumption|assumption|]. intros m' HM. apply HQ.
  eapply moves_ext; [intros a; symmetry; apply hfp_rk|reflexivity|exact HM].
Qed.
Lemma skipn_at {A} (q : list A) : forall k i, nth_error (skipn k q) i = nth_error q (k + i).
Proof. induction q as [|y q IH]; intros [|k] i; cbn; try reflexivity; [destruct i; reflexivity|apply IH]. Qed.
Lemma wp_del_rks rc cc l rs cs ds m (V : nat -> nat -> nat -> K) (Q : unit -> mem K -> Prop) : length l = rs * cs -> (forall s, In s l -> rkleaf s) ->
  (forall k s, nth_error l k = Some s -> hrep m s (V k)) -> hmut m (HM rc cc None None (Some l) rs cs ds) ->
  (forall m', moves m (hfp (HM rc cc None None (Some l) rs cs ds)) nowhere m' -> Q tt m') -> wp TT TT (del_hmatrix (HM rc cc None None (Some l) rs cs ds)) m Q.
Proof.
  intros HL HK HR HU HQ. inversion HU as [| |? ? ? ? ? ? U1 U2]; subst. cbn [del_hmatrix]. apply wp_bind.
  assert (Hsk : forall k i, nth_error (skipn k l) i = nth_error l (k + i)) by (intros k i; apply skipn_at).
  apply (wp_for (fun k m1 => moves m (fpl l) (fpl (skipn k l)) m1 /\ forall p s, k <= p -> nth_error l p = Some s -> hrep m1 s (V p) /\ hmut m1 s)).
  - cbn [skipn]. split.
    + apply moves_refl. intros a (k & s & Hk & Ha). eapply hfp_lt; [eapply HR, Hk|apply U1; eapply nth_error_In, Hk|exact Ha].
    + intros p s _ Hp. split; [apply HR, Hp|apply U1; eapply nth_error_In, Hp].
  - intros k m1 [_ Hk] [HM HI]. cbn in Hk. destruct (nth_ex l k ltac:(lia)) as (s & Hs). apply wp_bind. rewrite (sget_map _ _ _ _ Hs). cbn [wp].
    destruct (HI k s (Nat.le_refl k) Hs) as [HR1 HU1].
    eapply wp_del_rkleaf; [apply HK; eapply nth_error_In, Hs|exact HR1|exact HU1|]. intros m2 HM2. split.
    + eapply moves_trans; [exact HM|]. rewrite (skipn_nth _ _ _ Hs).
      eapply moves_ext; [| |eapply (moves_frame _ _ _ (fpl (skipn (S k) l))); [exact HM2|]].
      * intros a. split.
        -- intros [Ha|(i & t & Ht & Ha)]; [exists 0, s; auto|exists (S i), t; auto].
        -- intros ([|i] & t & Ht & Ha); [left; cbn in Ht; congruence|right; exists i, t; auto].
      * intros a. unfold nowhere. tauto.
      * intros a (i & t & Ht & Ha). rewrite Hsk in Ht. destruct (HI (S k + i) t ltac:(lia) Ht) as [A1 A2]. eapply hfp_lt; eassumption.
    + intros p t Hp Ht. destruct (HI p t ltac:(lia) Ht) as [A1 A2]. assert (Hd : disj (hfp t) (hfp s)) by (eapply (U2 p k); [exact Ht|exact Hs|lia]).
      split; [eapply hrep_moves; [exact HM2|exact A1|]; intros a Ha; apply Hd, inh_hfp, Ha|eapply hmut_moves; [exact HM2|exact A2|exact Hd]].
  - intros m1 [HM _]. cbn [bind wp]. apply HQ. eapply moves_ext; [intros a; symmetry; apply hfp_super| |exact HM]. intros a. cbn [Nat.add]. rewrite skipn_all2 by lia. unfold fpl, nowhere. split; [|tauto].
    intros (i & t & Ht & _). destruct i; discriminate.
Qed.
Lemma wp_del_views rc cc l rs cs ds m (Q : unit -> mem K -> Prop) : length l = rs * cs -> (forall s, In s l -> view s) -> Q tt m -> wp TT TT (del_hmatrix (HM rc cc None None (Some l) rs cs ds)) m Q.
Proof.
  intros HL HV HQ. cbn [del_hmatrix]. apply wp_bind. apply (wp_for (fun k m1 => m1 = m)); [reflexivity| |].
  - intros k m1 [_ Hk] ->. cbn in Hk. destruct (nth_ex l k ltac:(lia)) as (s & Hs). apply wp_bind. rewrite (sget_map _ _ _ _ Hs). cbn [wp].
    destruct (HV s (nth_error_In _ _ Hs)) as (rc1 & cc1 & f & ds1 & -> & Ho). cbn [del_hmatrix bind]. unfold uninit_amatrix. rewrite Ho. reflexivity.
  - intros m1 ->. exact HQ.
Qed.

(** ** Splitting *)
Lemma update_super (rc cc : cptr G) l rs cs m (Q : hmx -> mem K -> Prop) : length l = rs * cs -> (forall ds, Q (HM rc cc None None (Some l) rs cs ds) m) ->
  wp TT TT (update_hmatrix (new_super_hmatrix rc cc rs cs l)) m Q.
Proof.
  intros HL HQ. cbn [update_hmatrix new_super_hmatrix]. apply wp_bind. apply (HmP4.wp_sonloop (fun _ (_ : nat) m1 => m1 = m)); [reflexivity| |].
  - intros k d m1 Hk ->. destruct (nth_ex l k ltac:(lia)) as (s & Hs). apply wp_bind. rewrite (sget_some _ _ _ Hs). reflexivity.
  - intros d m1 ->. cbn [wp]. apply HQ.
Qed.
(** [part] is given by the lists of clusters [rl] and [cl] *)
Lemma wp_split (leaf : cptr G -> nat -> cptr G -> nat -> prog K hmx) (rsp csp : bool) rc cc rs cs (rl cl : nat -> cptr G) (I : list hmx -> mem K -> Prop) m (Q : hmx -> mem K -> Prop) :
  part_sons rsp rc = rs -> part_sons csp cc = cs -> (forall i, i < rs -> part_son (K := K) rsp rc i = Ret (rl i)) -> (forall j, j < cs -> part_son (K := K) csp cc j = Ret (cl j)) ->
  0 < rs -> nsum rs (fun i => csz (rl i)) = csz rc -> nsum cs (fun j => csz (cl j)) = csz cc ->
  I [] m ->
  (forall i j l1 m1, i < rs -> j < cs -> length l1 = i + j * rs -> I l1 m1 ->
     wp TT TT (leaf (rl i) (nsum i (fun i => csz (rl i))) (cl j) (nsum j (fun j => csz (cl j)))) m1 (fun s m2 => I (l1 ++ [s]) m2)) ->
  (forall l m' ds, length l = rs * cs -> I l m' -> Q (HM rc cc None None (Some l) rs cs ds) m') ->
  wp TT TT (split_with rc cc rsp csp leaf) m Q.
Proof.
  intros ER EC HRl HCl R0 E1 E2 I0 HS HQ. unfold split_with. rewrite ER, EC. cbv zeta. apply wp_bind.
  apply (wp_forS (fun j (st : list hmx * nat) m1 => snd st = nsum j (fun j => csz (cl j)) /\ length (fst st) = j * rs /\ I (fst st) m1)).
  - split; [reflexivity|]. split; [reflexivity|exact I0].
  - intros j [l1 coff] m1 [_ Hj] [Hc HI]. cbn [fst snd] in *. cbn in Hj. subst coff. apply wp_bind. rewrite HCl by lia. cbn [wp]. apply wp_bind.
    apply (wp_forS (fun i (st : list hmx * nat) m1 => snd st = nsum i (fun i => csz (rl i)) /\ length (fst st) = i + j * rs /\ I (fst st) m1)).
    + split; [reflexivity|exact HI].
    + intros i [l2 roff] m2 [_ Hi] [Hr [HL2 HI2]]. cbn [fst snd] in *. cbn in Hi. subst roff. apply wp_bind. rewrite HRl by lia. cbn [wp]. apply wp_bind.
      eapply wp_conseq; [apply (HS i j l2 m2); [lia|lia|exact HL2|exact HI2]|]. cbv beta. intros s m3 HI3. cbn [wp fst snd]. split; [reflexivity|]. split; [rewrite app_length; cbn; lia|exact HI3].
    + intros [l2 roff] m2 [Hr [HL2 HI2]]. cbn [fst snd Nat.add] in *. subst roff. apply wp_bind, wp_assert; [apply Nat.eqb_eq, E1|]. cbn [wp fst snd]. split; [reflexivity|]. split; [cbn; exact HL2|exact HI2].
  - intros [l1 coff] m1 [Hc [HL1 HI1]]. cbn [fst snd Nat.add] in *. subst coff. apply wp_bind, wp_assert; [apply Nat.eqb_eq, E2|]. apply update_super; [lia|]. intros ds. apply HQ; [lia|exact HI1].
Qed.
Lemma app_nth {A} (l1 : list A) (x : A) k (y : A) : nth_error (l1 ++ [x]) k = Some y -> (k < length l1 /\ nth_error l1 k = Some y) \/ (k = length l1 /\ y = x).
Proof.
  intros E. destruct (Nat.lt_ge_cases k (length l1)) as [Hl|Hl].
  - rewrite nth_error_app1 in E by exact Hl. auto.
  - rewrite nth_error_app2 in E by exact Hl. destruct (k - length l1) as [|n] eqn:En; [right; cbn in E; split; [lia|congruence]|]. destruct n; discriminate.
Qed.
(** The parts of a low-rank matrix start with rank zero. *)
Lemma wp_split_rk (r : rkm) rc cc rsp csp rs cs (rl cl : nat -> cptr G) m (Q : hmx -> mem K -> Prop) :
  part_sons rsp rc = rs -> part_sons csp cc = cs -> (forall i, i < rs -> part_son (K := K) rsp rc i = Ret (rl i)) -> (forall j, j < cs -> part_son (K := K) csp cc j = Ret (cl j)) ->
  0 < rs -> 0 < cs -> nsum rs (fun i => csz (rl i)) = csz rc -> nsum cs (fun j => csz (cl j)) = csz cc ->
  (forall i, i < rs -> 0 < csz (rl i)) -> (forall j, j < cs -> 0 < csz (cl j)) ->
  (forall l m' ds, let h := HM rc cc None None (Some l) rs cs ds in length l = rs * cs -> (forall i j s, i < rs -> j < cs -> nth_error l (i + j * rs) = Some s -> rkleaf s /\ hm_rc s = rl i /\ hm_cc s = cl j /\ hrep m' s (fun _ _ => f0)) ->
     hmut m' h -> moves m nowhere (hfp h) m' -> Q h m') ->
  wp TT TT (split_rkmatrix r rc cc rsp csp false) m Q.
Proof.
  intros ER EC HRl HCl R0 C0 E1 E2 PR PC HQ. unfold split_rkmatrix.
  apply (wp_split _ rsp csp rc cc rs cs rl cl (fun l1 m1 => (forall i j s, i < rs -> j < cs -> nth_error l1 (i + j * rs) = Some s -> rkleaf s /\ hm_rc s = rl i /\ hm_cc s = cl j /\ hrep m1 s (fun _ _ => f0) /\ hmut m1 s) /\
     (forall i k s t, nth_error l1 i = Some s -> nth_error l1 k = Some t -> i <> k -> disj (hfp s) (hfp t)) /\ moves m nowhere (fpl l1) m1)); auto.
  - split; [intros i j s _ _ Hs; destruct (i + j * rs); discriminate|]. split; [intros i k s t Hs; destruct i; discriminate|]. eapply moves_ext; [reflexivity| |apply moves_refl; intros a []].
    intros a. unfold nowhere. split; [tauto|]. intros (k & s & Hk & _). destruct k; discriminate.
  - intros i j l1 m1 Hi Hj HL (I1 & I2 & I3). cbn iota. unfold new_rk_hmatrix, init_rkmatrix. apply wp_bind. apply wp_bind.
    eapply s_init; [apply st_empty|]. intros X m2 RX CX S1. apply wp_bind. eapply s_init; [exact S1|]. intros Y m3 RY CY S2. cbn [wp].
    pose proof (st_own _ _ _ _ _ 1 _ _ _ S2 eq_refl) as (A1 & A2 & A3 & A4). pose proof (st_own _ _ _ _ _ 0 _ _ _ S2 eq_refl) as (B3 & B4 & B5 & B6).
    pose proof (st_neq _ _ _ _ _ 0 1 _ _ S2 eq_refl eq_refl ltac:(lia)) as HN. cbn in HN.
    set (s := HM (rl i) (cl j) (Some (Rk X Y 0)) None None 0 0 1).
    assert (HO : rkown m3 (Rk X Y 0)) by (repeat split; cbn [rk_A rk_B rk_k]; auto; lia).
    assert (HMv : moves m1 nowhere (hfp s) m3).
    { eapply moves_ext; [| |exact (st_moves m1 [] _ _ _ (fun b (X : In b []) => match X with end) ltac:(cbn; intros b [[]|E]; exact E) S2)].
      - intros a. cbn. unfold nowhere. tauto.
      - intros a. unfold s. rewrite hfp_rk. cbn. unfold rkblk. cbn. intuition congruence. }
    assert (Hold : forall t, In t l1 -> forall a, hfp t a -> fst a < next m1).
    { intros t Ht a Ha. apply (moves_lt _ _ _ _ _ I3). apply In_nth_error in Ht as (k & Hk). exists k, t. auto. }
    split; [|split].
    + intros i' j' t Hi' Hj' Ht. apply app_nth in Ht as [[Hk Ht]|[Hk Ht]].
      * destruct (I1 i' j' t Hi' Hj' Ht) as (H1 & H2 & H3 & H4 & H5). repeat split; auto.
        -- eapply hrep_moves; [exact HMv|exact H4|apply disj_nowhere].
        -- eapply hmut_moves; [exact HMv|exact H5|apply disj_nowhere].
      * assert (Eij : i' = i /\ j' = j) by (rewrite HL in Hk; assert (i' = (i' + j' * rs) mod rs) by (rewrite Nat.mod_add, Nat.mod_small; lia); assert (i = (i + j * rs) mod rs) by (rewrite Nat.mod_add, Nat.mod_small; lia); rewrite Hk in *; split; [congruence|]; assert (i' = i) by congruence; subst i'; nia).
        destruct Eij as [-> ->]. subst t. split; [exists (rl i), (cl j), (Rk X Y 0), 1; reflexivity|]. split; [reflexivity|]. split; [reflexivity|]. split.
        -- constructor; [exact RX|exact RY|apply rk_zero; [exact HO|reflexivity]].
        -- constructor; auto.
    + intros i' k t u Ht Hu Hne. apply app_nth in Ht as [[Hk1 Ht]|[Hk1 Ht]]; apply app_nth in Hu as [[Hk2 Hu]|[Hk2 Hu]].
      * eapply (I2 i' k); eassumption.
      * subst u. intros a Ha Hb. pose proof (Hold t (nth_error_In _ _ Ht) a Ha). pose proof (moves_new _ _ _ _ HMv Hb). lia.
      * subst t. intros a Ha Hb. pose proof (Hold u (nth_error_In _ _ Hu) a Hb). pose proof (moves_new _ _ _ _ HMv Ha). lia.
      * lia.
    + eapply moves_ext; [reflexivity| |exact (moves_add _ _ _ _ _ I3 HMv)]. intros a. split.
      * intros [(k & t & Hk & Ha)|Ha]; [exists k, t; split; [rewrite nth_error_app1; [exact Hk|apply nth_error_Some; congruence]|exact Ha]|exists (length l1), s]. rewrite nth_error_app2, Nat.sub_diag by lia. auto.
      * intros (k & t & Hk & Ha). apply app_nth in Hk as [[_ Hk]|[_ ->]]; [left; exists k, t; auto|right; exact Ha].
  - intros l m' ds HL (I1 & I2 & I3). apply HQ; [exact HL| | |].
    + intros i j s Hi Hj Hs. destruct (I1 i j s Hi Hj Hs) as (H1 & H2 & H3 & H4 & H5). auto.
    + constructor; [|exact I2]. intros s Hs. apply In_nth_error in Hs as (k & Hk). assert (Hlt : k < rs * cs) by (rewrite <- HL; apply nth_error_Some; congruence).
      apply (I1 (k mod rs) (k / rs)); [apply Nat.mod_upper_bound; lia|apply Nat.div_lt_upper_bound; lia|]. replace (k mod rs + k / rs * rs) with k by (pose proof (Nat.div_mod k rs ltac:(lia)); lia). exact Hk.
    + eapply moves_ext; [reflexivity| |exact I3]. intros a. symmetry. apply hfp_super.
Qed.
(** The parts of a dense matrix are views. *)
Lemma wp_split_am (f : mat) rc cc rsp csp rs cs (rl cl : nat -> cptr G) m g (Q : hmx -> mem K -> Prop) :
  part_sons rsp rc = rs -> part_sons csp cc = cs -> (forall i, i < rs -> part_son (K := K) rsp rc i = Ret (rl i)) -> (forall j, j < cs -> part_son (K := K) csp cc j = Ret (cl j)) ->
  0 < rs -> 0 < cs -> nsum rs (fun i => csz (rl i)) = csz rc -> nsum cs (fun j => csz (cl j)) = csz cc ->
  (forall i, i < rs -> 0 < csz (rl i)) -> (forall j, j < cs -> 0 < csz (cl j)) -> mwf f -> mval m f g -> mrows f = csz rc -> mcols f = csz cc ->
  (forall l ds, let h := HM rc cc None None (Some l) rs cs ds in length l = rs * cs -> (forall i j s, i < rs -> j < cs -> nth_error l (i + j * rs) = Some s ->
        s = HM (rl i) (cl j) None (Some (subm f (nsum i (fun i => csz (rl i))) (csz (rl i)) (nsum j (fun j => csz (cl j))) (csz (cl j)))) None 0 0 1) -> Q h m) ->
  wp TT TT (split_sub_amatrix f rc cc rsp csp) m Q.
Proof.
  intros ER EC HRl HCl R0 C0 E1 E2 PR PC HW HV RF CF HQ. unfold split_sub_amatrix.
  apply (wp_split _ rsp csp rc cc rs cs rl cl (fun l1 m1 => m1 = m /\ (forall i j s, i < rs -> j < cs -> nth_error l1 (i + j * rs) = Some s ->
        s = HM (rl i) (cl j) None (Some (subm f (nsum i (fun i => csz (rl i))) (csz (rl i)) (nsum j (fun j => csz (cl j))) (csz (cl j)))) None 0 0 1))); auto.
  - split; [reflexivity|]. intros i j s _ _ Hs. destruct (i + j * rs); discriminate.
  - intros i j l1 m1 Hi Hj HL [-> HI]. pose proof (nsum_in (fun i => csz (rl i)) i rs Hi). pose proof (nsum_in (fun j => csz (cl j)) j cs Hj). apply wp_bind, wp_init_sub_amatrix; [lia|lia|]. cbn [wp]. split; [reflexivity|].
    intros i' j' t Hi' Hj' Ht. apply app_nth in Ht as [[Hk Ht]|[Hk Ht]]; [apply HI; assumption|].
    assert (Eij : i' = i /\ j' = j) by (rewrite HL in Hk; assert (i' = (i' + j' * rs) mod rs) by (rewrite Nat.mod_add, Nat.mod_small; lia); assert (i = (i + j * rs) mod rs) by (rewrite Nat.mod_add, Nat.mod_small; lia); rewrite Hk in *; split; [congruence|]; assert (i' = i) by congruence; subst i'; nia).
    destruct Eij as [-> ->]. exact Ht.
  - intros l m' ds HL [-> HI]. apply HQ; assumption.
Qed.
End Storage.
