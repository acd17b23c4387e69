(** * Proofs about H-matrices: clone, clear, identity and scale *)
From Coq Require Import Arith Lia List Bool Ring Permutation.
From Verif Require Import Fld Ord Prog Arr View Spec Loop Cluster Block BlockP Avector AvectorP Amatrix AmatrixP AmatrixP2
  Rkmatrix RkSpec RkP Hmatrix HmSpec HmP HmP4.
Import ListNotations.

Section HmP5.
Context {K : fops} {G : ofops} (L : ring_laws K).
Add Ring Kr : (rl_ring K L).
Implicit Types (m : mem K) (R W : addr -> Prop) (h s : hmatrix G) (D : nat -> nat -> K).
Local Notation hmx := (hmatrix G).

(** ** Facts about the vocabulary *)
Lemma hstr_shape m h : hstr m h -> hshape h.
Proof.
  induction h as [h IH] using hm_rect'. intros H. inversion H as [| |rc cc l rsons csons ds hs ws P1 P2 P3 P4 P5 P6 P7]; subst;
    [apply hshape_leaf; reflexivity|apply hshape_leaf; reflexivity|].
  apply hshape_super; [exact P3|]. intros s Hs. apply (IH l s); auto.
Qed.
Lemma hleaves_str m h s : hstr m h -> In s (hleaves h) -> hstr m s.
Proof.
  induction h as [h IH] using hm_rect'. intros H. inversion H as [| |rc cc l rsons csons ds hs ws P1 P2 P3 P4 P5 P6 P7]; subst; cbn.
  - intros [<-|[]]. exact H.
  - intros [<-|[]]. exact H.
  - intros Hs. apply in_flat_map in Hs. destruct Hs as (t & Ht & Hs). apply (IH l t); auto.
Qed.
Lemma hleaves_rep m h D s : hrep m h D -> In s (hleaves h) -> exists D', hrep m s D'.
Proof.
  intros H. revert s. induction H as [rc cc r ds D H1 H2 H3|rc cc f ds D H1 H2 H3|rc cc l rsons csons ds hs ws D P1 P2 P3 P4 P5 P6 P7 IH];
    intros s; cbn.
  - intros [<-|[]]. exists D. constructor; assumption.
  - intros [<-|[]]. exists D. constructor; assumption.
  - intros Hs. apply in_flat_map in Hs. destruct Hs as (t & Ht & Hs). apply In_nth_error in Ht. destruct Ht as [k Hk].
    pose proof (nth_lt _ _ _ Hk) as Hlt. rewrite P3 in Hlt.
    assert (E : k = k mod rsons + k / rsons * rsons) by (rewrite (Nat.div_mod k rsons) at 1 by lia; lia).
    apply (IH (k mod rsons) (k / rsons) t); auto.
    + apply Nat.mod_upper_bound. lia.
    + apply Nat.div_lt_upper_bound; lia.
    + rewrite <- E. exact Hk.
Qed.
Lemma inh_blk h a : inh h a -> In (fst a) (hblocks h).
Proof.
  intros H. induction H as [h r a E Ha|h f a E Ha|h l s a E Hs Ha IH]; destruct h as [rc cc r0 f0 son rs cs ds]; cbn in E; subst; cbn.
  - destruct Ha as [Ha|Ha]; apply inm_blk in Ha; rewrite Ha; auto.
  - rewrite !in_app_iff. right. apply inm_blk in Ha. rewrite Ha. left. reflexivity.
  - rewrite !in_app_iff. right; right. apply in_flat_map. exists s. split; assumption.
Qed.
Lemma hrep_blk W m m' h D : hrep m h D -> keeps W m m' -> (forall a, In (fst a) (hblocks h) -> ~ W a) -> hrep m' h D.
Proof. intros H Hk Hd. eapply hrep_keeps; [exact H|exact Hk|]. intros a Ha. apply Hd, inh_blk, Ha. Qed.
Lemma rkown_blk W m m' (r : rkm) : rkown m r -> keeps W m m' -> (forall a, rkblk r a -> ~ W a) -> rkown m' r.
Proof.
  intros (O1 & O2 & O3 & O4 & O5 & O6 & O7 & O8 & O9 & O10 & O11) Hk Hd. pose proof (proj1 Hk).
  repeat (split; [assumption || lia|]). split; (eapply malloc_keeps'; [eassumption|exact Hk|]); intros a Ha; apply Hd; apply inm_blk in Ha; [left|right]; exact Ha.
Qed.
Lemma hstr_blk W m m' h : hstr m h -> keeps W m m' -> (forall a, In (fst a) (hblocks h) -> ~ W a) -> hstr m' h.
Proof.
  intros H Hk. pose proof (proj1 Hk) as Hn.
  induction H as [rc cc r ds H1 H2 H3|rc cc f ds H1 H2 H3 H4 H5 H6|rc cc l rsons csons ds hs ws P1 P2 P3 P4 P5 P6 P7 IH]; intros Hd.
  - constructor; auto. eapply rkown_blk; [exact H3|exact Hk|]. intros a [Ha|Ha]; apply Hd; cbn; auto.
  - constructor; auto; [lia|]. eapply malloc_keeps'; [exact H6|exact Hk|]. intros a Ha. apply Hd. cbn. left. symmetry. apply inm_blk. exact Ha.
  - econstructor; eauto. intros s Hs. apply IH; [exact Hs|]. intros a Ha. apply Hd. cbn. apply in_flat_map. exists s. split; assumption.
Qed.
Lemma hstr_bound m h b : hstr m h -> In b (hblocks h) -> b < next m.
Proof.
  intros H. induction H as [rc cc r ds H1 H2 H3|rc cc f ds H1 H2 H3 H4 H5 H6|rc cc l rsons csons ds hs ws P1 P2 P3 P4 P5 P6 P7 IH]; cbn.
  - destruct H3 as (_ & _ & _ & O4 & O5 & _). intros [<-|[<-|[]]]; assumption.
  - intros [<-|[]]. assumption.
  - intros Hb. apply in_flat_map in Hb. destruct Hb as (s & Hs & Hb). eapply IH; eauto.
Qed.
Lemma hsim_sizes h h' : hsim h h' -> hm_rc h = hm_rc h' /\ hm_cc h = hm_cc h'.
Proof. intros []; auto. Qed.
Lemma hsim_rc h h' : hsim h h' -> hrows h' = hrows h /\ hcols h' = hcols h.
Proof. intros H. unfold hrows, hcols. destruct (hsim_sizes _ _ H) as [-> ->]. auto. Qed.

Lemma mval_uniq m (A : mat) f g i j : mval m A f -> mval m A g -> i < mrows A -> j < mcols A -> f i j = g i j.
Proof. intros H1 H2 Hi Hj. specialize (H1 i j Hi Hj). specialize (H2 i j Hi Hj). congruence. Qed.
Lemma leaf_uniq m h D D' : hm_son h = None -> hrep m h D -> hrep m h D' -> forall i j, i < hrows h -> j < hcols h -> D' i j = D i j.
Proof.
  intros Hs H H' i j Hi Hj. inversion H as [rc cc r ds D1 H1 H2 H3|rc cc f ds D1 H1 H2 H3|]; subst; [| |discriminate];
    inversion H' as [? ? ? ? ? H1' H2' H3'|? ? ? ? ? H1' H2' H3'|]; subst; unfold hrows, hcols in *; cbn in Hi, Hj.
  - destruct H3 as (A & B & HA & HB & CA & CB & HD). destruct H3' as (A' & B' & HA' & HB' & CA' & CB' & HD').
    rewrite HD, HD' by lia. apply sum_ext. intros nu Hnu. rewrite (mval_uniq m (rk_A r) A' A), (mval_uniq m (rk_B r) B' B); auto; lia.
  - eapply mval_uniq; eauto; lia.
Qed.

(** ** From leaves to the tree *)
Lemma Forall2_nth_error {A B} (P : A -> B -> Prop) l l' : length l = length l' ->
  (forall k x y, nth_error l k = Some x -> nth_error l' k = Some y -> P x y) -> Forall2 P l l'.
Proof.
  revert l'. induction l as [|a l IH]; intros [|b l'] E H; try discriminate; constructor.
  - apply (H 0); reflexivity.
  - apply IH; [cbn in E; lia|]. intros k x y Hx Hy. apply (H (S k)); assumption.
Qed.
Lemma Forall2_nth {A B} (P : A -> B -> Prop) l l' k x y : Forall2 P l l' -> nth_error l k = Some x -> nth_error l' k = Some y -> P x y.
Proof.
  intros H. revert k. induction H as [|a b l l' Hab H IH]; intros [|k] Hx Hy; try discriminate; cbn in Hx, Hy; [congruence|eauto].
Qed.
Lemma hall_sim (P : hmx -> hmx -> Prop) h h' : hall P h h' -> (forall s s', P s s' -> hsim s s') -> hsim h h'.
Proof.
  revert h'. induction h as [h IH] using hm_rect'. intros h' H HP. destruct H as [h h' Hs H|rc cc l l' rs cs ds ds' Hl Hl' Hp]; [auto|].
  constructor. apply Forall2_nth_error; [congruence|]. intros k x y Hx Hy. apply (IH l x eq_refl); [eapply nth_error_In; exact Hx|eapply Hp; eassumption|exact HP].
Qed.
Lemma hall_str m (P : hmx -> hmx -> Prop) m' h h' : hall P h h' -> (forall s s', P s s' -> hsim s s' /\ hstr m' s') -> hstr m h -> hstr m' h'.
Proof.
  revert h'. induction h as [h IH] using hm_rect'. intros h' H HP. destruct H as [h h' Hs H|rc cc l l' rs cs ds ds' Hl Hl' Hp]; [intros _; apply (HP _ _ H)|].
  intros Hst. inversion Hst as [| |? ? ? ? ? ? hs ws P1 P2 P3 P4 P5 P6 P7]; subst.
  apply (hstr_super _ _ _ _ _ _ _ hs ws); auto.
  - intros i j s' Hi Hj Hs'. destruct (nth_ex l (i + j * rs)) as [s Hs]; [rewrite Hl; apply pos_lt; assumption|].
    pose proof (Hp _ _ _ Hs Hs') as Ha. apply hall_sim in Ha; [|intros; apply HP; assumption]. apply hsim_rc in Ha. destruct Ha as [-> ->]. eauto.
  - intros s' Hs'. apply In_nth_error in Hs'. destruct Hs' as [k Hk]. destruct (nth_ex l k) as [s Hs]; [apply nth_lt in Hk; lia|].
    pose proof (nth_error_In _ _ Hs). apply (IH l s eq_refl); auto. eapply Hp; eassumption.
Qed.
(** The matrix of the leaf [s'] is obtained from that of [s] entry by entry. *)
Lemma hall_rep (g : K -> K) (P : hmx -> hmx -> Prop) m m' h h' D : hall P h h' ->
  (forall s s', P s s' -> hsim s s' /\ exists D, hrep m s D /\ hrep m' s' (fun i j => g (D i j))) ->
  hrep m h D -> hrep m' h' (fun i j => g (D i j)).
Proof.
  revert h' D. induction h as [h IH] using hm_rect'. intros h' D H HP. destruct H as [h h' Hs H|rc cc l l' rs cs ds ds' Hl Hl' Hp].
  - intros Hr. destruct (HP _ _ H) as (Hm & D1 & H1 & H2). eapply hrep_ext; [exact H2|]. intros i j Hi Hj. cbv beta. f_equal.
    apply hsim_rc in Hm. destruct Hm as [E1 E2]. eapply (leaf_uniq m h D1 D); eauto; lia.
  - intros Hst. inversion Hst as [| |? ? ? ? ? ? hs ws ? P1 P2 P3 P4 P5 P6 P7]; subst.
    apply (hrep_super _ _ _ _ _ _ _ hs ws); auto.
    + intros i j s' Hi Hj Hs'. destruct (nth_ex l (i + j * rs)) as [s Hs]; [rewrite Hl; apply pos_lt; assumption|].
      pose proof (Hp _ _ _ Hs Hs') as Ha. apply hall_sim in Ha; [|intros; apply HP; assumption]. apply hsim_rc in Ha. destruct Ha as [-> ->]. eauto.
    + intros i j s' Hi Hj Hs'. destruct (nth_ex l (i + j * rs)) as [s Hs]; [rewrite Hl; apply pos_lt; assumption|].
      apply (IH l s eq_refl (nth_error_In _ _ Hs) s' (fun p q => D (nsum i hs + p) (nsum j ws + q))); auto. eapply Hp; eassumption.
Qed.

(** ** Leaves *)
Lemma foot_leaf (own : bool) s b : own = true -> In b (hblocks s) -> foot own s b.
Proof. split; assumption. Qed.
Lemma foot_no s b : ~ foot false s b.
Proof. intros [E _]. discriminate. Qed.

Lemma leaf_cases m s : hm_son s = None -> hstr m s ->
  (exists rc cc r ds, s = HM rc cc (Some r) None None 0 0 ds /\ mrows (rk_A r) = csz rc /\ mrows (rk_B r) = csz cc /\ rkown m r) \/
  (exists rc cc f ds, s = HM rc cc None (Some f) None 0 0 ds /\ mrows f = csz rc /\ mcols f = csz cc /\ mown f = true /\ mblk f < next m /\ mwf f /\ malloc m f).
Proof.
  intros Hs H. inversion H; subst; [left|right|discriminate].
  - eexists _, _, _, _. split; [reflexivity|]. auto.
  - eexists _, _, _, _. split; [reflexivity|]. repeat split; auto; apply H5.
Qed.

Lemma NoDup_two (a b : nat) : a <> b -> NoDup [a; b].
Proof. intros H. constructor; [intros [E|[]]; congruence|]. constructor; [intros []|constructor]. Qed.
Lemma NoDup_one (a : nat) : NoDup [a].
Proof. constructor; [intros []|constructor]. Qed.

(** The leaf [s'] has the structure of [s] and represents [g] applied to the entries of [s] in
    the memory [m0]. *)
Definition leaf_g (g : K -> K) m0 m' s s' : Prop := hsim s s' /\ hm_son s' = None /\ hstr m' s' /\ exists D, hrep m0 s D /\ hrep m' s' (fun i j => g (D i j)).
Definition leaf_in m0 m s : Prop := hstr m s /\ exists D, hrep m0 s D /\ hrep m s D.

Lemma leaf_in_st m0 m m' W s : leaf_in m0 m s -> keeps W m m' -> (forall a, In (fst a) (hblocks s) -> ~ W a) -> leaf_in m0 m' s.
Proof.
  intros (H1 & D & H2 & H3) Hk Hd. split; [eapply hstr_blk; eauto|]. exists D. split; [exact H2|]. eapply hrep_blk; eauto.
Qed.
Lemma leaf_g_st g m0 m m' W s s' : leaf_g g m0 m s s' -> keeps W m m' -> (forall a, In (fst a) (hblocks s') -> ~ W a) -> leaf_g g m0 m' s s'.
Proof.
  intros (H0 & Hs & H1 & D & H2 & H3) Hk Hd. split; [exact H0|]. split; [exact Hs|]. split; [eapply hstr_blk; eauto|]. exists D. split; [exact H2|]. eapply hrep_blk; eauto.
Qed.
Lemma hsim_leaf h h' : hsim h h' -> hm_son h = None -> hm_son h' = None.
Proof. intros [] E; [reflexivity|reflexivity|discriminate]. Qed.

Lemma hstr_ds m (rc cc : cptr G) r f rs cs ds ds' : hstr m (HM rc cc r f None rs cs ds) -> hstr m (HM rc cc r f None rs cs ds').
Proof. intros H. inversion H; subst; constructor; auto. Qed.
Lemma hrep_ds m (rc cc : cptr G) r f rs cs ds ds' D : hrep m (HM rc cc r f None rs cs ds) D -> hrep m (HM rc cc r f None rs cs ds') D.
Proof. intros H. inversion H; subst; constructor; auto. Qed.
Lemma hsim_ds rc cc r f rs cs ds ds' s : hsim s (HM rc cc r f None rs cs ds) -> hsim s (HM rc cc r f None rs cs ds').
Proof. intros H. inversion H; subst; constructor; auto. Qed.

(** ** clone *)
Definition clone_leaf (h : hmx) : prog K hmx :=
  match hm_r h with
  | Some r =>
      h' <- new_rk_hmatrix (hm_rc h) (hm_cc h) (rk_k r) ;;
      match hm_r h' with
      | Some r' => copy_amatrix false (rk_A r) (rk_A r') ;;; copy_amatrix false (rk_B r) (rk_B r') ;;; Ret h'
      | None => Fail ENull
      end
  | None =>
      f <- have_f h ;;
      h' <- new_full_hmatrix (hm_rc h) (hm_cc h) ;;
      match hm_f h' with
      | Some f' => copy_amatrix false f f' ;;; Ret h'
      | None => Fail ENull
      end
  end.

(** Copying the factors of a low-rank matrix to one that has storage of its own. *)
Lemma wp_copy_factors {X} m (r r' : rkm) D (k : prog K X) (Q : X -> mem K -> Prop) :
  rkrep m r D -> rkown m r' -> (forall a, rkblk r a -> ~ rkblk r' a) -> mrows (rk_A r') = mrows (rk_A r) -> mrows (rk_B r') = mrows (rk_B r) -> rk_k r' = rk_k r ->
  (forall m', rkrep m' r' D -> rkown m' r' -> keeps (rkblk r') m m' -> wp TT TT k m' Q) ->
  wp TT TT (copy_amatrix false (rk_A r) (rk_A r') ;;; copy_amatrix false (rk_B r) (rk_B r') ;;; k) m Q.
Proof.
  intros (A & B & HA & HB & CA & CB & HD) O Hd E1 E2 E3 HQ. assert (O' := O).
  destruct O as (O1 & O2 & O3 & O4 & O5 & O6 & O7 & O8 & O9 & O10 & O11).
  assert (Hb : forall a, rkblk r a -> fst a <> mblk (rk_A r') /\ fst a <> mblk (rk_B r')).
  { intros a Ha. split; intros E; apply (Hd a Ha); [left|right]; exact E. }
  apply wp_bind. eapply (wp_copy_amatrix TT TT false); [exact O6|exact HA|exact O10| | | |cbn; lia|cbn; lia|].
  - intros a Ha Ha'. apply inm_blk in Ha. apply inm_blk in Ha'. destruct (Hb a (or_introl Ha)). congruence.
  - intros a Ha. left. exact I.
  - intros a Ha. exact I.
  - intros m1 HA1 K1. cbn [tr] in HA1.
    assert (HB1 : mval m1 (rk_B r) B).
    { eapply mval_keeps; [exact HB|exact K1|]. intros a Ha Ha'. apply inm_blk in Ha. apply inm_blk in Ha'. destruct (Hb a (or_intror Ha)). congruence. }
    assert (AB1 : malloc m1 (rk_B r')).
    { eapply malloc_keeps'; [exact O11|exact K1|]. intros a Ha Ha'. apply inm_blk in Ha. apply inm_blk in Ha'. congruence. }
    apply wp_bind. eapply (wp_copy_amatrix TT TT false); [exact O7|exact HB1|exact AB1| | | |cbn; lia|cbn; lia|].
    + intros a Ha Ha'. apply inm_blk in Ha. apply inm_blk in Ha'. destruct (Hb a (or_intror Ha)). congruence.
    + intros a Ha. left. exact I.
    + intros a Ha. exact I.
    + intros m2 HB2 K2. cbn [tr] in HB2.
      assert (K02 : keeps (rkblk r') m m2).
      { eapply keeps_trans; (eapply keeps_mono; [|eassumption]); cbv beta; intros a Ha; apply inm_blk in Ha; [left|right]; exact Ha. }
      assert (HA2 : mval m2 (rk_A r') A).
      { eapply mval_keeps; [exact HA1|exact K2|]. intros a Ha Ha'. apply inm_blk in Ha. apply inm_blk in Ha'. congruence. }
      apply HQ; [| |exact K02].
      * exists A, B. split; [exact HA2|]. split; [exact HB2|]. split; [exact O8|]. split; [exact O9|]. intros i j Hi Hj. rewrite E3. apply HD; lia.
      * pose proof (proj1 K02). repeat (split; [assumption || lia|]).
        assert (Q1 : forall m (A : mat) f, mval m A f -> malloc m A) by (intros mm AA ff H1 i j Hi Hj; rewrite (H1 i j Hi Hj); discriminate).
        split; eapply Q1; eassumption.
Qed.

Lemma wp_clone_leaf m0 m s : hm_son s = None -> leaf_in m0 m s -> (forall b, In b (hblocks s) -> b < next m) ->
  wp TT TT (clone_leaf s) m (fun s' m' => leaf_g (fun x => x) m0 m' s s' /\ NoDup (hblocks s') /\
    (forall b, In b (hblocks s') -> b < next m' /\ (foot false s b \/ next m <= b)) /\ keeps (fun a => foot false s (fst a) \/ next m <= fst a) m m').
Proof.
  intros Hs (Hst & D & HD0 & HD) Hb. destruct (leaf_cases m s Hs Hst) as [(rc & cc & r & ds & -> & E1 & E2 & Hr)|(rc & cc & f & ds & -> & E1 & E2 & E3 & E4 & E5 & E6)].
  - inversion HD as [? ? ? ? ? ? ? Hrk| |]; subst. unfold clone_leaf. cbn [hm_r]. unfold new_rk_hmatrix. apply wp_bind. apply wp_bind. cbn [hm_rc hm_cc].
    apply wp_init_rk. intros r' m1 O1 R1 R2 R3 F1 K1. cbn [wp hm_r].
    assert (Hrk1 : rkrep m1 r D).
    { eapply rkrep_dis; [exact Hrk|exact K1|]. destruct Hr as (_ & _ & _ & O4 & O5 & _). intros a [Ha|Ha]; lia. }
    eapply (wp_copy_factors m1 r r' D); [exact Hrk1|exact O1| |lia|lia|lia|].
    + intros a Ha Ha'. apply F1 in Ha'. destruct Hr as (_ & _ & _ & O4 & O5 & _). destruct Ha; lia.
    + intros m2 H2 O2 K2. cbn [wp]. pose proof (proj1 K2). pose proof (proj1 K1).
      pose proof (F1 (mblk (rk_A r'), 0) (or_introl eq_refl)) as FA. pose proof (F1 (mblk (rk_B r'), 0) (or_intror eq_refl)) as FB. cbn in FA, FB.
      split; [|split; [|split]].
      * split; [constructor|]. split; [reflexivity|]. split; [constructor; auto|]. exists D. split; [exact HD0|]. constructor; auto.
      * apply NoDup_two. apply O2.
      * cbn. intros b [<-|[<-|[]]]; split; try lia; right; lia.
      * eapply keeps_trans; (eapply keeps_mono; [|eassumption]); cbv beta; intros a Ha; right; [lia|]. apply F1 in Ha. lia.
  - inversion HD as [|? ? ? ? ? ? ? Hf|]; subst. unfold clone_leaf, have_f. cbn [hm_r hm_f bind]. unfold new_full_hmatrix. apply wp_bind. apply wp_bind. cbn [hm_rc hm_cc].
    apply wp_init_amatrix. intros f' Ef' W' A'. cbn [wp hm_f].
    set (m1 := alloc m (csz rc * csz cc)) in *.
    assert (K1 : keeps (fun a => next m <= fst a) m m1).
    { split; [cbn; lia|]. intros a Ha. unfold m1. rewrite get_alloc_old by (cbn; lia). reflexivity. }
    apply wp_bind. eapply (wp_copy_amatrix TT TT false f f' D); [exact W'| |exact A'| | | |subst; cbn; lia|subst; cbn; lia|].
    + eapply mval_keeps; [exact Hf|exact K1|]. intros a Ha Hle. apply inm_blk in Ha. lia.
    + intros a Ha Ha'. apply inm_blk in Ha. apply inm_blk in Ha'. subst f'. cbn in Ha'. lia.
    + intros a Ha. left. exact I.
    + intros a Ha. exact I.
    + intros m2 H2 K2. cbn [wp tr] in *. pose proof (proj1 K2) as N2. assert (next m1 = next m + 1) by (cbn; lia).
      assert (Bf : mblk f' = next m) by (subst f'; reflexivity).
      split; [|split; [|split]].
      * split; [constructor|]. split; [reflexivity|]. split.
        -- constructor; try (subst f'; reflexivity); [lia|exact W'|]. intros i j Hi Hj. rewrite (H2 i j Hi Hj). discriminate.
        -- exists D. split; [exact HD0|]. constructor; try (subst f'; reflexivity). exact H2.
      * apply NoDup_one.
      * cbn. intros b [<-|[]]; split; [lia|right; lia].
      * eapply keeps_trans; (eapply keeps_mono; [|eassumption]); cbv beta; intros a Ha; right; [lia|]. apply inm_blk in Ha. lia.
Qed.

Lemma wp_clone_h m h D (Q : hmx -> mem K -> Prop) : hstr m h -> hrep m h D ->
  (forall h' m', hsim h h' -> hown m' h' -> hdesc_ok h' -> hrep m' h' D -> (forall b, In b (hblocks h') -> next m <= b) ->
     keeps (fun a => next m <= fst a) m m' -> Q h' m') ->
  wp TT TT (clone_hmatrix h) m Q.
Proof.
  intros Hst HD HQ. change (clone_hmatrix h) with (tr_prog (G := G) clone_leaf true h).
  eapply wp_conseq; [apply (wp_tr clone_leaf false true (leaf_in m) (leaf_g (fun x => x) m))|].
  - intros; eapply leaf_in_st; eauto.
  - intros; eapply leaf_g_st; eauto.
  - intros m1 s Hs Hl Hb _. apply wp_clone_leaf; auto.
  - intros m1 s s' H. apply H.
  - intros _ m1 rc cc r f rs cs ds s (H1 & H2 & H3 & D1 & H4 & H5). split; [eapply hsim_ds; exact H1|]. split; [reflexivity|].
    split; [eapply hstr_ds; exact H3|]. exists D1. split; [exact H4|eapply hrep_ds; exact H5].
  - eapply hstr_shape; exact Hst.
  - intros s Hs. split; [eapply hleaves_str; eauto|]. destruct (hleaves_rep m h D s HD Hs) as [D1 HD1]. exists D1. auto.
  - intros b. apply hstr_bound. exact Hst.
  - discriminate.
  - cbv beta. intros h' m' (Ha & Hn & Hds & Hbl & Hk). apply HQ.
    + eapply hall_sim; [exact Ha|]. intros s s' H. apply H.
    + split; [|exact Hn]. eapply hall_str; [exact Ha| |exact Hst]. intros s s' H. split; apply H.
    + auto.
    + eapply (hall_rep (fun x => x)); [exact Ha| |exact HD]. intros s s' H. split; apply H.
    + intros b Hb. destruct (Hbl b Hb) as [_ [Hf|Hf]]; [destruct (foot_no _ _ Hf)|exact Hf].
    + eapply keeps_mono; [|exact Hk]. cbv beta. intros a [Hf|Hf]; [destruct (foot_no _ _ Hf)|exact Hf].
Qed.

(** ** Leaves whose new matrix depends on the leaf only *)
Inductive hfrom (dm : hmx -> nat -> nat -> K) : hmx -> (nat -> nat -> K) -> Prop :=
| hfrom_leaf h D : hm_son h = None -> (forall i j, i < hrows h -> j < hcols h -> D i j = dm h i j) -> hfrom dm h D
| hfrom_super rc cc l rs cs ds hs ws D :
    (forall i j s, i < rs -> j < cs -> nth_error l (i + j * rs) = Some s -> hrows s = hs i /\ hcols s = ws j) ->
    (forall i j s, i < rs -> j < cs -> nth_error l (i + j * rs) = Some s -> hfrom dm s (fun p q => D (nsum i hs + p) (nsum j ws + q))) ->
    hfrom dm (HM rc cc None None (Some l) rs cs ds) D.
Definition leaf_d (dm : hmx -> nat -> nat -> K) m' s s' : Prop := hsim s s' /\ hm_son s' = None /\ hstr m' s' /\ hrep m' s' (dm s).

Lemma nsum_fit (hs hs' : nat -> nat) n : (forall i, i < n -> hs i = hs' i) -> forall i, i <= n -> nsum i hs = nsum i hs'.
Proof. intros H i Hi. apply nsum_ext. intros. apply H. lia. Qed.

Lemma hall_d dm m m' h h' D : hall (leaf_d dm m') h h' -> hstr m h -> hfrom dm h D -> hrep m' h' D.
Proof.
  revert h' D. induction h as [h IH] using hm_rect'. intros h' D H. destruct H as [h h' Hs H|rc cc l l' rs cs ds ds' Hl Hl' Hp].
  - intros _ Hf. destruct H as (Hsm & _ & _ & Hr). inversion Hf as [? ? _ He|]; subst; [|discriminate].
    eapply hrep_ext; [exact Hr|]. apply hsim_rc in Hsm. destruct Hsm as [E1 E2]. intros i j Hi Hj. apply He; lia.
  - intros Hst Hf. inversion Hst as [| |? ? ? ? ? ? hs ws P1 P2 P3 P4 P5 P6 P7]; subst.
    inversion Hf as [|? ? ? ? ? ? hs' ws' ? F6 F7]; subst; [discriminate|].
    assert (Eh : forall i, i < rs -> hs' i = hs i).
    { intros i Hi. destruct (nth_ex l (i + 0 * rs)) as [s Hs]; [rewrite Hl; apply pos_lt; lia|].
      destruct (P6 i 0 s Hi P2 Hs). destruct (F6 i 0 s Hi P2 Hs). congruence. }
    assert (Ew : forall j, j < cs -> ws' j = ws j).
    { intros j Hj. destruct (nth_ex l (0 + j * rs)) as [s Hs]; [rewrite Hl; apply pos_lt; lia|].
      destruct (P6 0 j s P1 Hj Hs). destruct (F6 0 j s P1 Hj Hs). congruence. }
    apply (hrep_super _ _ _ _ _ _ _ hs' ws'); auto.
    + rewrite <- P4. apply nsum_ext. auto.
    + rewrite <- P5. apply nsum_ext. auto.
    + intros i j s' Hi Hj Hs'. destruct (nth_ex l (i + j * rs)) as [s Hs]; [rewrite Hl; apply pos_lt; assumption|].
      pose proof (Hp _ _ _ Hs Hs') as Ha. apply hall_sim in Ha; [|intros ? ? Hx; apply Hx]. apply hsim_rc in Ha. destruct Ha as [-> ->]. eauto.
    + intros i j s' Hi Hj Hs'. destruct (nth_ex l (i + j * rs)) as [s Hs]; [rewrite Hl; apply pos_lt; assumption|].
      pose proof (nth_error_In _ _ Hs) as Hin. apply (IH l s eq_refl Hin); [eapply Hp; eassumption|auto|eauto].
Qed.

Lemma leaf_d_st dm m m' W s s' : leaf_d dm m s s' -> keeps W m m' -> (forall a, In (fst a) (hblocks s') -> ~ W a) -> leaf_d dm m' s s'.
Proof.
  intros (H0 & Hs & H1 & H3) Hk Hd. split; [exact H0|]. split; [exact Hs|]. split; [eapply hstr_blk; eauto|]. eapply hrep_blk; eauto.
Qed.

(** A low-rank leaf whose rank is set to zero. *)
Lemma wp_rk_zero m (rc cc : cptr G) r ds (Q : hmx -> mem K -> Prop) : let s := HM rc cc (Some r) None None 0 0 ds in
  mrows (rk_A r) = csz rc -> mrows (rk_B r) = csz cc -> rkown m r ->
  (forall s' m', hsim s s' -> hm_son s' = None -> hstr m' s' -> hrep m' s' (fun _ _ => f0) -> NoDup (hblocks s') ->
    (forall b, In b (hblocks s') -> b < next m' /\ (foot true s b \/ next m <= b)) -> keeps (fun a => foot true s (fst a) \/ next m <= fst a) m m' -> Q s' m') ->
  wp TT TT (r' <- setrank_rkmatrix r 0 ;; Ret (set_r s r')) m Q.
Proof.
  intros s E1 E2 Hr HQ. apply wp_bind. rewrite setrank_resize. apply wp_resize_rk; [exact Hr|].
  intros r' m' O R1 R2 R3 [N1 N2] Hk. cbn [wp set_r]. assert (O' := O). destruct O' as (_ & _ & O3 & O4 & O5 & _).
  apply HQ.
  - constructor.
  - reflexivity.
  - constructor; auto; lia.
  - constructor; [lia|lia|]. apply rk_zero; assumption.
  - apply NoDup_two. exact O3.
  - cbn. intros b [<-|[<-|[]]]; (split; [assumption|]); unfold foot; cbn; intuition lia.
  - eapply keeps_mono; [|exact Hk]. cbv beta. unfold rkblk, foot. cbn. intuition lia.
Qed.

Lemma wp_full_leaf m (rc cc : cptr G) f ds (p : prog K unit) (F : nat -> nat -> K) (Q : hmx -> mem K -> Prop) : let s := HM rc cc None (Some f) None 0 0 ds in
  mrows f = csz rc -> mcols f = csz cc -> mown f = true -> mblk f < next m -> mwf f ->
  (forall Q' : unit -> mem K -> Prop, (forall m', mval m' f F -> keeps (inm f) m m' -> Q' tt m') -> wp TT TT p m Q') ->
  (forall m', hsim s s -> hm_son s = None -> hstr m' s -> hrep m' s F -> NoDup (hblocks s) ->
    (forall b, In b (hblocks s) -> b < next m' /\ (foot true s b \/ next m <= b)) -> keeps (fun a => foot true s (fst a) \/ next m <= fst a) m m' -> Q s m') ->
  wp TT TT (p ;;; Ret s) m Q.
Proof.
  intros s E1 E2 E3 E4 E5 Hp HQ. apply wp_bind. apply Hp. intros m' Hv Hk. cbn [wp]. pose proof (proj1 Hk). apply HQ.
  - constructor.
  - reflexivity.
  - constructor; auto; [lia|]. intros i j Hi Hj. rewrite (Hv i j Hi Hj). discriminate.
  - constructor; auto.
  - apply NoDup_one.
  - cbn. intros b [<-|[]]. split; [lia|]. left. split; [reflexivity|left; reflexivity].
  - eapply keeps_mono; [|exact Hk]. cbv beta. intros a Ha. apply inm_blk in Ha. left. split; [reflexivity|]. left. symmetry. exact Ha.
Qed.

Definition clear_leaf (h : hmx) : prog K hmx :=
  match hm_r h with
  | Some r => r' <- setrank_rkmatrix r 0 ;; Ret (set_r h r')
  | None => f <- have_f h ;; clear_amatrix f ;;; Ret h
  end.
Definition identity_leaf (h : hmx) : prog K hmx :=
  match hm_r h with
  | Some r => r' <- setrank_rkmatrix r 0 ;; Ret (set_r h r')
  | None => f <- have_f h ;;
            (if cp_eqb (hm_rc h) (hm_cc h) then identity_amatrix f else clear_amatrix f) ;;; Ret h
  end.
Definition scale_leaf (alpha : K) (h : hmx) : prog K hmx :=
  match hm_r h with
  | Some r => scale_rkmatrix alpha r ;;; Ret h
  | None => match hm_f h with Some f => scale_amatrix alpha f ;;; Ret h | None => Ret h end
  end.

Lemma wrokT (P : addr -> Prop) : wrok TT P. Proof. intros a _. exact I. Qed.
Lemma rdokT (P : addr -> Prop) : rdok TT TT P. Proof. intros a _. left. exact I. Qed.

Definition leafspec (own : bool) (leaf : hmx -> prog K hmx) (P : mem K -> hmx -> hmx -> Prop) m s : Prop :=
  wp TT TT (leaf s) m (fun s' m' => P m' s s' /\ NoDup (hblocks s') /\
    (forall b, In b (hblocks s') -> b < next m' /\ (foot own s b \/ next m <= b)) /\ keeps (fun a => foot own s (fst a) \/ next m <= fst a) m m').

Definition dm_zero : hmx -> nat -> nat -> K := fun _ _ _ => f0.
Definition dm_id : hmx -> nat -> nat -> K := fun s =>
  match hm_r s with Some _ => fun _ _ => f0 | None => if cp_eqb (hm_rc s) (hm_cc s) then idf else fun _ _ => f0 end.

Lemma wp_clear_leaf m s : hm_son s = None -> hstr m s -> leafspec true clear_leaf (leaf_d dm_zero) m s.
Proof.
  intros Hs Hst. unfold leafspec, clear_leaf.
  destruct (leaf_cases m s Hs Hst) as [(rc & cc & r & ds & -> & E1 & E2 & Hr)|(rc & cc & f & ds & -> & E1 & E2 & E3 & E4 & E5 & E6)]; cbn [hm_r have_f hm_f bind].
  - apply wp_rk_zero; [exact E1|exact E2|exact Hr|]. intros s' m' H1 H2 H3 H4 H5 H6 H7. split; [split; [exact H1|auto]|auto].
  - apply (wp_full_leaf _ _ _ _ _ _ (fun _ _ => f0)); [exact E1|exact E2|exact E3|exact E4|exact E5| |].
    + intros Q' HQ'. apply wp_clear_amatrix; auto. apply wrokT.
    + intros m' H1 H2 H3 H4 H5 H6 H7. split; [split; [exact H1|auto]|auto].
Qed.
Lemma wp_identity_leaf m s : hm_son s = None -> hstr m s -> leafspec true identity_leaf (leaf_d dm_id) m s.
Proof.
  intros Hs Hst. unfold leafspec, identity_leaf, leaf_d, dm_id.
  destruct (leaf_cases m s Hs Hst) as [(rc & cc & r & ds & -> & E1 & E2 & Hr)|(rc & cc & f & ds & -> & E1 & E2 & E3 & E4 & E5 & E6)]; cbn [hm_r have_f hm_f bind hm_rc hm_cc].
  - apply wp_rk_zero; [exact E1|exact E2|exact Hr|]. intros s' m' H1 H2 H3 H4 H5 H6 H7. split; [split; [exact H1|auto]|auto].
  - apply (wp_full_leaf _ _ _ _ _ _ (if cp_eqb rc cc then idf else fun _ _ => f0)); [exact E1|exact E2|exact E3|exact E4|exact E5| |].
    + intros Q' HQ'. destruct (cp_eqb rc cc); [apply wp_identity_amatrix|apply wp_clear_amatrix]; auto; apply wrokT.
    + intros m' H1 H2 H3 H4 H5 H6 H7. split; [split; [exact H1|auto]|auto].
Qed.
Lemma wp_scale_leaf alpha m0 m s : hm_son s = None -> leaf_in m0 m s -> leafspec true (scale_leaf alpha) (leaf_g (fun x => alpha * x)%F m0) m s.
Proof.
  intros Hs (Hst & D & HD0 & HD). unfold leafspec, scale_leaf.
  destruct (leaf_cases m s Hs Hst) as [(rc & cc & r & ds & -> & E1 & E2 & Hr)|(rc & cc & f & ds & -> & E1 & E2 & E3 & E4 & E5 & E6)]; cbn [hm_r have_f hm_f bind].
  - inversion HD as [? ? ? ? ? ? ? Hrk| |]; subst. assert (O := Hr). destruct O as (_ & _ & O3 & O4 & O5 & O6 & _).
    apply wp_bind. eapply (wp_scale_rk L); [exact Hrk|exact O6| |apply wrokT|].
    + intros a Ha Ha'. apply inm_blk in Ha. apply inm_blk in Ha'. congruence.
    + intros m' Hr' Hk. cbn [wp]. pose proof (proj1 Hk).
      assert (Hr2 : rkown m' r).
      { destruct Hr as (Q1 & Q2 & Q3 & Q4 & Q5 & Q6 & Q7 & Q8 & Q9 & Q10 & Q11). repeat (split; [assumption || lia|]).
        destruct Hr' as (A & B & HA & HB & _). split; intros i j Hi Hj; [rewrite (HA i j Hi Hj)|rewrite (HB i j Hi Hj)]; discriminate. }
      split; [|split; [apply NoDup_two; exact O3|split]].
      * split; [constructor|]. split; [reflexivity|]. split; [constructor; auto|]. exists D. split; [exact HD0|]. constructor; auto.
      * cbn. intros b [<-|[<-|[]]]; (split; [lia|]); left; (split; [reflexivity|cbn; auto]).
      * eapply keeps_mono; [|exact Hk]. cbv beta. intros a Ha. apply inm_blk in Ha. left. split; [reflexivity|]. left. symmetry. exact Ha.
  - inversion HD as [|? ? ? ? ? ? ? Hf|]; subst. apply (wp_full_leaf _ _ _ _ _ _ (fun i j => D i j * alpha)%F); auto.
    + intros Q' HQ'. eapply wp_scale_amatrix; eauto. apply wrokT.
    + intros m' H1 H2 H3 H4 H5 H6 H7. split; [|auto]. split; [exact H1|]. split; [exact H2|]. split; [exact H3|]. exists D. split; [exact HD0|].
      eapply hrep_ext; [exact H4|]. intros i j _ _. cbv beta. ring.
Qed.

(** ** The in-place functions *)
Definition blk_of h (a : addr) : Prop := In (fst a) (hblocks h).

Lemma wp_inplace_d dm leaf m h D (Q : hmx -> mem K -> Prop) :
  (forall m s, hm_son s = None -> hstr m s -> leafspec true leaf (leaf_d dm) m s) ->
  hown m h -> hfrom dm h D ->
  (forall h' m', hsim h h' -> hown m' h' -> hrep m' h' D -> (forall b, In b (hblocks h') -> In b (hblocks h) \/ next m <= b) ->
     keeps (fun a => blk_of h a \/ next m <= fst a) m m' -> Q h' m') ->
  wp TT TT (each_leaf leaf h) m Q.
Proof.
  intros Hleaf [Hst Hnd] Hf HQ. change (each_leaf leaf h) with (tr_prog (G := G) leaf false h).
  eapply wp_conseq; [apply (wp_tr leaf true false hstr (leaf_d dm))|].
  - intros; eapply hstr_blk; eauto.
  - intros; eapply leaf_d_st; eauto.
  - intros m1 s Hs Hl Hb _. apply Hleaf; auto.
  - intros m1 s s' H. apply H.
  - discriminate.
  - eapply hstr_shape; exact Hst.
  - intros s Hs. eapply hleaves_str; eauto.
  - intros b. apply hstr_bound. exact Hst.
  - auto.
  - cbv beta. intros h' m' (Ha & Hn & _ & Hbl & Hk). apply HQ.
    + eapply hall_sim; [exact Ha|]. intros s s' H. apply H.
    + split; [|exact Hn]. eapply hall_str; [exact Ha| |exact Hst]. intros s s' H. split; apply H.
    + eapply hall_d; eauto.
    + intros b Hb. destruct (Hbl b Hb) as [_ [[_ Hx]|Hx]]; auto.
    + eapply keeps_mono; [|exact Hk]. cbv beta. intros a [[_ Hx]|Hx]; [left|right]; exact Hx.
Qed.

Lemma hfrom_zero m h : hstr m h -> hfrom dm_zero h (fun _ _ => f0).
Proof.
  intros H. induction H as [rc cc r ds H1 H2 H3|rc cc f ds H1 H2 H3 H4 H5 H6|rc cc l rsons csons ds hs ws P1 P2 P3 P4 P5 P6 P7 IH].
  - apply hfrom_leaf; reflexivity.
  - apply hfrom_leaf; reflexivity.
  - eapply hfrom_super; [exact P6|]. intros i j s Hi Hj Hs. apply IH. eapply nth_error_In. exact Hs.
Qed.

Lemma wp_clear_h m h (Q : hmx -> mem K -> Prop) : hown m h ->
  (forall h' m', hsim h h' -> hown m' h' -> hrep m' h' (fun _ _ => f0) -> (forall b, In b (hblocks h') -> In b (hblocks h) \/ next m <= b) ->
     keeps (fun a => blk_of h a \/ next m <= fst a) m m' -> Q h' m') ->
  wp TT TT (clear_hmatrix h) m Q.
Proof.
  intros Ho HQ. apply (wp_inplace_d dm_zero clear_leaf m h (fun _ _ => f0)); auto; [apply wp_clear_leaf|eapply hfrom_zero; apply Ho].
Qed.

(** Every leaf is a dense diagonal block or lies off the diagonal. *)
Definition diag_ok s : Prop := (hm_rc s = hm_cc s /\ hm_r s = None) \/ (cp_eqb (hm_rc s) (hm_cc s) = false /\ apart (hm_rc s) (hm_cc s)).
Definition delta h (i j : nat) : K := if c_off (cp_c (hm_rc h)) + i =? c_off (cp_c (hm_cc h)) + j then f1 else f0.

Lemma hfrom_id m h : hstr m h -> hplaced h -> (forall s, In s (hleaves h) -> diag_ok s) -> hfrom dm_id h (delta h).
Proof.
  induction h as [h IH] using hm_rect'. intros Hst Hpl Hd.
  destruct (hm_son h) as [l|] eqn:El.
  - inversion Hpl as [? E|rc cc l1 rs cs ds hs ws P]; subst; [congruence|]. cbn in El. injection El as ->.
    eapply (hfrom_super _ _ _ _ _ _ _ hs ws).
    + intros i j s Hi Hj Hs. destruct (P i j s Hi Hj Hs) as (Q1 & Q2 & _). auto.
    + intros i j s Hi Hj Hs. destruct (P i j s Hi Hj Hs) as (Q1 & Q2 & Q3 & Q4 & Q5).
      pose proof (nth_error_In _ _ Hs) as Hin.
      assert (Hf : hfrom dm_id s (delta s)).
      { apply (IH l s eq_refl Hin); [|exact Q5|].
        - inversion Hst; subst; auto.
        - intros t Ht. apply Hd. cbn. apply in_flat_map. exists s. split; assumption. }
      assert (Hext : forall t (D1 D2 : nat -> nat -> K), (forall i j, D1 i j = D2 i j) -> hfrom dm_id t D1 -> hfrom dm_id t D2).
      { intros t. induction t as [t IHt] using hm_rect'. intros D1 D2 E Ht. inversion Ht as [? ? Es He|? ? ? ? ? ? ? ? ? F6 F7]; subst.
        - apply hfrom_leaf; [exact Es|]. intros. rewrite <- E. auto.
        - eapply hfrom_super; [exact F6|]. intros i0 j0 s0 Hi0 Hj0 Hs0. eapply (IHt _ s0 eq_refl (nth_error_In _ _ Hs0)); [|eauto]. cbv beta. intros. apply E. }
      eapply Hext; [|exact Hf]. intros p q. unfold delta. cbn [hm_rc hm_cc]. rewrite Q3, Q4.
      rewrite <- !Nat.add_assoc. reflexivity.
  - apply hfrom_leaf; [exact El|]. intros i j Hi Hj.
    assert (Hl : In h (hleaves h)) by (destruct h as [? ? ? ? [?|] ? ? ?]; [discriminate|left; reflexivity]).
    destruct (Hd h Hl) as [[E1 E2]|[E1 E2]]; unfold dm_id, delta.
    + rewrite E2, E1, cp_eqb_refl. unfold idf.
      destruct (Nat.eqb_spec (c_off (cp_c (hm_cc h)) + i) (c_off (cp_c (hm_cc h)) + j)); destruct (Nat.eqb_spec i j); auto; lia.
    + destruct (Nat.eqb_spec (c_off (cp_c (hm_rc h)) + i) (c_off (cp_c (hm_cc h)) + j)) as [E|E].
      * exfalso. unfold apart in E2. unfold hrows, hcols, csz in *. lia.
      * destruct (hm_r h); [reflexivity|]. rewrite E1. reflexivity.
Qed.

Lemma wp_identity_h m h (Q : hmx -> mem K -> Prop) : hown m h -> hplaced h -> (forall s, In s (hleaves h) -> diag_ok s) ->
  (forall h' m', hsim h h' -> hown m' h' -> hrep m' h' (delta h) -> (forall b, In b (hblocks h') -> In b (hblocks h) \/ next m <= b) ->
     keeps (fun a => blk_of h a \/ next m <= fst a) m m' -> Q h' m') ->
  wp TT TT (identity_hmatrix h) m Q.
Proof.
  intros Ho Hp Hd HQ. apply (wp_inplace_d dm_id identity_leaf m h (delta h)); auto; [apply wp_identity_leaf|eapply hfrom_id; eauto; apply Ho].
Qed.

Lemma wp_scale_h alpha m h D (Q : hmx -> mem K -> Prop) : hown m h -> hrep m h D ->
  (forall h' m', hsim h h' -> hown m' h' -> hrep m' h' (fun i j => alpha * D i j)%F -> (forall b, In b (hblocks h') -> In b (hblocks h) \/ next m <= b) ->
     keeps (fun a => blk_of h a \/ next m <= fst a) m m' -> Q h' m') ->
  wp TT TT (scale_hmatrix alpha h) m Q.
Proof.
  intros [Hst Hnd] HD HQ. change (scale_hmatrix alpha h) with (tr_prog (G := G) (scale_leaf alpha) false h).
  eapply wp_conseq; [apply (wp_tr (scale_leaf alpha) true false (leaf_in m) (leaf_g (fun x => alpha * x)%F m))|].
  - intros; eapply leaf_in_st; eauto.
  - intros; eapply leaf_g_st; eauto.
  - intros m1 s Hs Hl Hb _. apply wp_scale_leaf; auto.
  - intros m1 s s' H. apply H.
  - discriminate.
  - eapply hstr_shape; exact Hst.
  - intros s Hs. split; [eapply hleaves_str; eauto|]. destruct (hleaves_rep m h D s HD Hs) as [D1 HD1]. exists D1. auto.
  - intros b. apply hstr_bound. exact Hst.
  - auto.
  - cbv beta. intros h' m' (Ha & Hn & _ & Hbl & Hk). apply HQ.
    + eapply hall_sim; [exact Ha|]. intros s s' H. apply H.
    + split; [|exact Hn]. eapply hall_str; [exact Ha| |exact Hst]. intros s s' H. split; apply H.
    + eapply (hall_rep (fun x => alpha * x)%F); [exact Ha| |exact HD]. intros s s' H. split; apply H.
    + intros b Hb. destruct (Hbl b Hb) as [_ [[_ Hx]|Hx]]; auto.
    + eapply keeps_mono; [|exact Hk]. cbv beta. intros a [[_ Hx]|Hx]; [left|right]; exact Hx.
Qed.

(** ** clonestructure *)
Definition struct_leaf (h : hmx) : prog K hmx :=
  match hm_r h with
  | Some r => new_rk_hmatrix (hm_rc h) (hm_cc h) (rk_k r)
  | None => have_f h ;;; new_full_hmatrix (hm_rc h) (hm_cc h)
  end.
Definition leaf_s m' s s' : Prop := hsim s s' /\ hm_son s' = None /\ hstr m' s' /\ hranks s' = hranks s.

Lemma wp_new_rk_h m (rc cc : cptr G) k (Q : hmx -> mem K -> Prop) :
  (forall r m', hstr m' (HM rc cc (Some r) None None 0 0 1) -> rk_k r = k -> NoDup (hblocks (HM rc cc (Some r) None None 0 0 1)) ->
     (forall b, In b (hblocks (HM rc cc (Some r) None None 0 0 1)) -> next m <= b < next m') ->
     keeps (fun a => next m <= fst a) m m' -> Q (HM rc cc (Some r) None None 0 0 1) m') ->
  wp TT TT (new_rk_hmatrix rc cc k) m Q.
Proof.
  intros HQ. unfold new_rk_hmatrix. apply wp_bind. apply wp_init_rk. intros r m1 O1 R1 R2 R3 F1 K1. cbn [wp]. apply HQ; auto.
  - constructor; auto.
  - apply NoDup_two, O1.
  - cbn. pose proof (F1 (mblk (rk_A r), 0) (or_introl eq_refl)) as FA. pose proof (F1 (mblk (rk_B r), 0) (or_intror eq_refl)) as FB. cbn in FA, FB.
    intros b [<-|[<-|[]]]; lia.
Qed.
Lemma wp_new_full_h m (rc cc : cptr G) (Q : hmx -> mem K -> Prop) :
  (forall f m', hstr m' (HM rc cc None (Some f) None 0 0 1) ->
     NoDup (hblocks (HM rc cc None (Some f) None 0 0 1)) -> (forall b, In b (hblocks (HM rc cc None (Some f) None 0 0 1)) -> next m <= b < next m') ->
     keeps (fun a => next m <= fst a) m m' -> Q (HM rc cc None (Some f) None 0 0 1) m') ->
  wp TT TT (new_full_hmatrix rc cc) m Q.
Proof.
  intros HQ. unfold new_full_hmatrix. apply wp_bind. apply wp_init_amatrix. intros f Ef W1 A1. cbn [wp].
  assert (Bf : mblk f = next m) by (subst f; reflexivity). apply HQ.
  - constructor; try (subst f; reflexivity); [cbn; lia|exact W1|exact A1].
  - apply NoDup_one.
  - cbn. intros b [<-|[]]. cbn. lia.
  - split; [cbn; lia|]. intros a Ha. rewrite get_alloc_old by (cbn; lia). reflexivity.
Qed.

Lemma wp_struct_leaf m s : hm_son s = None -> hstr m s -> leafspec false struct_leaf leaf_s m s.
Proof.
  intros Hs Hst. unfold leafspec, struct_leaf.
  destruct (leaf_cases m s Hs Hst) as [(rc & cc & r & ds & -> & E1 & E2 & Hr)|(rc & cc & f & ds & -> & E1 & E2 & E3 & E4 & E5 & E6)]; cbn [hm_r have_f hm_f bind hm_rc hm_cc].
  - apply wp_new_rk_h. intros r' m' H1 H2 H3 H4 H5. split; [|split; [exact H3|split]].
    + split; [constructor|]. split; [reflexivity|]. split; [exact H1|]. cbn. rewrite H2. reflexivity.
    + intros b Hb. apply H4 in Hb. split; [lia|right; lia].
    + eapply keeps_mono; [|exact H5]. cbv beta. auto.
  - apply wp_new_full_h. intros f' m' H1 H3 H4 H5. split; [|split; [exact H3|split]].
    + split; [constructor|]. split; [reflexivity|]. split; [exact H1|]. reflexivity.
    + intros b Hb. apply H4 in Hb. split; [lia|right; lia].
    + eapply keeps_mono; [|exact H5]. cbv beta. auto.
Qed.

Lemma hranks_ds rc cc (r : option rkm) f rs cs ds ds' : hranks (HM rc cc r f None rs cs ds : hmx) = hranks (HM rc cc r f None rs cs ds').
Proof. reflexivity. Qed.
Lemma hall_ranks P h h' : hall P h h' -> (forall s s', P s s' -> hranks s' = hranks s) -> hranks h' = hranks h.
Proof.
  revert h'. induction h as [h IH] using hm_rect'. intros h' H HP. destruct H as [h h' Hs H|rc cc l l' rs cs ds ds' Hl Hl' Hp]; [auto|].
  cbn [hranks app]. assert (HF : Forall2 (fun s s' => hranks s' = hranks s) l l').
  { apply Forall2_nth_error; [congruence|]. intros k x y Hx Hy. apply (IH l x eq_refl); [eapply nth_error_In; exact Hx|eapply Hp; eassumption|exact HP]. }
  clear -HF. induction HF; [reflexivity|]. cbn. congruence.
Qed.

Lemma wp_clonestructure_h m h (Q : hmx -> mem K -> Prop) : hstr m h ->
  (forall h' m', hsim h h' -> hown m' h' -> hdesc_ok h' -> hranks h' = hranks h -> (forall b, In b (hblocks h') -> next m <= b) ->
     keeps (fun a => next m <= fst a) m m' -> Q h' m') ->
  wp TT TT (clonestructure_hmatrix h) m Q.
Proof.
  intros Hst HQ. change (clonestructure_hmatrix h) with (tr_prog (G := G) struct_leaf true h).
  eapply wp_conseq; [apply (wp_tr struct_leaf false true hstr leaf_s)|].
  - intros; eapply hstr_blk; eauto.
  - intros m1 m2 W s s' (H0 & Hs & H1 & H3) Hk Hd. split; [exact H0|]. split; [exact Hs|]. split; [eapply hstr_blk; eauto|exact H3].
  - intros m1 s Hs Hl Hb _. apply wp_struct_leaf; auto.
  - intros m1 s s' H. apply H.
  - intros _ m1 rc cc r f rs cs ds s (H1 & H2 & H3 & H4). split; [eapply hsim_ds; exact H1|]. split; [reflexivity|].
    split; [eapply hstr_ds; exact H3|exact H4].
  - eapply hstr_shape; exact Hst.
  - intros s Hs. eapply hleaves_str; eauto.
  - intros b. apply hstr_bound. exact Hst.
  - discriminate.
  - cbv beta. intros h' m' (Ha & Hn & Hds & Hbl & Hk). apply HQ.
    + eapply hall_sim; [exact Ha|]. intros s s' H. apply H.
    + split; [|exact Hn]. eapply hall_str; [exact Ha| |exact Hst]. intros s s' H. split; apply H.
    + auto.
    + eapply hall_ranks; [exact Ha|]. intros s s' H. apply H.
    + intros b Hb. destruct (Hbl b Hb) as [_ [Hf|Hf]]; [destruct (foot_no _ _ Hf)|exact Hf].
    + eapply keeps_mono; [|exact Hk]. cbv beta. intros a [Hf|Hf]; [destruct (foot_no _ _ Hf)|exact Hf].
Qed.
End HmP5.
