(** * Copies of cluster bases *)
From Coq Require Import Arith Lia List Bool Permutation.
From Verif Require Import Fld Ord Prog Arr View Loop Spec Cluster Block Avector Amatrix AmatrixP AmatrixP2 RkP Hmatrix HmSpec HmP Clusterbasis CbSpec CbP CbP2 Cbmgr CbmSpec CbmP.
Import ListNotations.

Section P.
Context {K : fops} {G : ofops}.
Implicit Types (m : mem K) (cb s : cbasis G) (D : nat -> Prop) (Ls : list mat).

Lemma Forall2_nth {A B} (P : A -> B -> Prop) l l' : Forall2 P l l' <-> length l' = length l /\ forall i a b, nth_error l i = Some a -> nth_error l' i = Some b -> P a b.
Proof.
  split.
  - induction 1 as [|a b l l' H1 H2 (IH1 & IH2)]; [split; [reflexivity|intros [|]; discriminate]|]. split; [cbn; lia|].
    intros [|i] x y; cbn; [intros [= <-] [= <-]; exact H1|apply IH2].
  - revert l'. induction l as [|a l IH]; intros [|b l'] (H1 & H2); cbn in H1; try discriminate; constructor.
    + apply (H2 0); reflexivity.
    + apply IH. split; [lia|]. intros i x y Hx Hy. apply (H2 (S i)); assumption.
Qed.
Lemma Forall2_nth_l {A B} (P : A -> B -> Prop) l l' i a : Forall2 P l l' -> nth_error l i = Some a -> exists b, nth_error l' i = Some b /\ P a b.
Proof. intros H Ha. apply Forall2_nth in H as (H1 & H2). destruct (nth_ex l' i) as [b Hb]; [apply nth_in in Ha; lia|]. exists b. split; [exact Hb|]. eapply H2; eassumption. Qed.
Lemma Forall2_nth_r {A B} (P : A -> B -> Prop) l l' i b : Forall2 P l l' -> nth_error l' i = Some b -> exists a, nth_error l i = Some a /\ P a b.
Proof. intros H Hb. apply Forall2_nth in H as (H1 & H2). destruct (nth_ex l i) as [a Ha]; [apply nth_in in Hb; lia|]. exists a. split; [exact Ha|]. eapply H2; eassumption. Qed.
Lemma Forall2_in_r {A B} (P : A -> B -> Prop) l l' b : Forall2 P l l' -> In b l' -> exists a, In a l /\ P a b.
Proof. intros H Hb. apply In_nth_error in Hb as (i & Hi). destruct (Forall2_nth_r _ _ _ _ _ H Hi) as (a & Ha & HP). exists a. split; [apply nth_in in Ha; apply Ha|exact HP]. Qed.
Lemma at_Forall2 {A B} (f : A -> nat) (g : B -> nat) l l' : Forall2 (fun a b => f a = g b) l l' -> map f l = map g l'.
Proof. induction 1; cbn; congruence. Qed.

(** ** Copies *)
Lemma ceq_t m m' cb cb' : ceq m m' cb cb' -> cb_t cb' = cb_t cb /\ cb_k cb' = cb_k cb /\ cb_ktree cb' = cb_ktree cb /\ cb_kbranch cb' = cb_kbranch cb /\ length (cb_son cb') = length (cb_son cb).
Proof. intros H. destruct H; cbn; auto. Qed.
Lemma ceq_sons m m' cb cb' : ceq m m' cb cb' -> Forall2 (fun s s' => ceq m m' s s' /\ mrows (cb_E s') = mrows (cb_E s) /\ mcols (cb_E s') = mcols (cb_E s) /\ mval m' (cb_E s') (mfun m (cb_E s))) (cb_son cb) (cb_son cb').
Proof. intros H. destruct H; cbn; [constructor|]. apply Forall2_nth. split; assumption. Qed.
Lemma ceq_setE m m' cb cb' E' : ceq m m' cb cb' -> ceq m m' cb (cb_setE cb' E').
Proof. intros H. destruct H; cbn; [constructor; assumption|]. eapply ceq_node; eassumption. Qed.
Lemma ceq_keeps m m1 m2 (W : addr -> Prop) cb : forall cb', ceq m m1 cb cb' -> keeps W m1 m2 -> (forall a, incb cb' a -> ~ W a) -> ceq m m2 cb cb'.
Proof.
  induction cb as [cb IH] using cb_rect'. intros cb' H Hk Hd. destruct H as [t k kt kb V E Z V' E' Z' H1 H2 H3|t k kt kb V E l Z V' E' l' Z' H1 H2 H3].
  - constructor; [exact H1|exact H2|]. eapply mval_keeps; [exact H3|exact Hk|]. intros a Ha. apply Hd. constructor. exact Ha.
  - apply ceq_node; [exact H1|exact H2|]. intros i s s' Hs Hs'. destruct (H3 i s s' Hs Hs') as (A1 & A2 & A3 & A4).
    apply nth_in in Hs' as [_ Hs']. split; [|split; [exact A2|split; [exact A3|]]].
    + eapply IH; [cbn; apply nth_in in Hs; apply Hs|exact A1|exact Hk|]. intros a Ha. apply Hd. eapply incb_son; [|exact Ha]. exact Hs'.
    + eapply mval_keeps; [exact A4|exact Hk|]. intros a Ha. apply Hd. eapply incb_E; [|exact Ha]. exact Hs'.
Qed.
Lemma ceq_src m0 m m' cb : forall cb', ceq m m' cb cb' -> (forall a, incb cb a -> get m0 a = get m a) -> ceq m0 m' cb cb'.
Proof.
  assert (HF : forall A, (forall a, inm A a -> get m0 a = get m a) -> forall i j, mfun m0 A i j = mfun m A i j).
  { intros A H i j. unfold mfun. destruct (Nat.ltb_spec i (mrows A)), (Nat.ltb_spec j (mcols A)); try reflexivity. cbn [andb]. rewrite H; [reflexivity|]. exists i, j. auto. }
  induction cb as [cb IH] using cb_rect'. intros cb' H Hd. destruct H as [t k kt kb V E Z V' E' Z' H1 H2 H3|t k kt kb V E l Z V' E' l' Z' H1 H2 H3].
  - constructor; [exact H1|exact H2|]. eapply mval_ext; [exact H3|]. intros i j _ _. symmetry. apply HF. intros a Ha. apply Hd. constructor. exact Ha.
  - apply ceq_node; [exact H1|exact H2|]. intros i s s' Hs Hs'. destruct (H3 i s s' Hs Hs') as (A1 & A2 & A3 & A4).
    apply nth_in in Hs as [_ Hs]. split; [|split; [exact A2|split; [exact A3|]]].
    + eapply IH; [exact Hs|exact A1|]. intros a Ha. apply Hd. eapply incb_son; [|exact Ha]. exact Hs.
    + eapply mval_ext; [exact A4|]. intros p q _ _. symmetry. apply HF. intros a Ha. apply Hd. eapply incb_E; [|exact Ha]. exact Hs.
Qed.
(** A copy has consistent dimensions, initialised matrices, and represents the same basis. *)
Lemma ceq_ok m m' cb : forall cb', cbok cb -> ceq m m' cb cb' -> cbok cb'.
Proof.
  induction cb as [cb IH] using cb_rect'. intros cb' Hok H. destruct H as [t k kt kb V E Z V' E' Z' H1 H2 H3|t k kt kb V E l Z V' E' l' Z' H1 H2 H3].
  - inversion Hok; subst; [|congruence]. constructor; congruence.
  - inversion Hok as [|? ? ? ? ? ? ? ? N1 N2 N3 N4 N5 N6]; subst; [congruence|].
    assert (HF : forall i s', nth_error l' i = Some s' -> exists s, nth_error l i = Some s /\ ceq m m' s s' /\ mrows (cb_E s') = mrows (cb_E s) /\ mcols (cb_E s') = mcols (cb_E s)).
    { intros i s' Hs'. destruct (nth_ex l i) as [s Hs]; [apply nth_in in Hs'; lia|]. exists s. destruct (H3 _ _ _ Hs Hs') as (A1 & A2 & A3 & _). auto. }
    assert (EM : forall f : cbasis G -> nat, (forall s s', ceq m m' s s' -> f s' = f s) -> map f l' = map f l).
    { intros f Hf. symmetry. apply at_Forall2. apply Forall2_nth. split; [exact H2|]. intros i s s' Hs Hs'. symmetry. apply Hf. apply (H3 i s s' Hs Hs'). }
    apply cbok_node.
    + intros ->. destruct l; [congruence|discriminate].
    + intros s' Hs'. apply In_nth_error in Hs' as (i & Hs'). destruct (HF _ _ Hs') as (s & Hs & A1 & A2 & A3). apply nth_in in Hs as [_ Hs].
      destruct (N2 s Hs) as (B1 & B2 & B3). destruct (ceq_t _ _ _ _ A1) as (_ & T & _). split; [|split; congruence]. eapply IH; [exact Hs|exact B1|exact A1].
    + intros i s' Hs'. destruct (HF _ _ Hs') as (s & Hs & A1 & A2 & A3). destruct (ceq_t _ _ _ _ A1) as (T & _). rewrite T. apply N3, Hs.
    + unfold at_. rewrite (EM cb_size), H2; [exact N4|]. intros s s' A1. unfold cb_size. destruct (ceq_t _ _ _ _ A1) as (T & _). congruence.
    + unfold at_. rewrite (EM cb_ktree), H2; [reflexivity|]. intros s s' A1. apply (ceq_t _ _ _ _ A1).
    + rewrite (EM cb_kbranch); [reflexivity|]. intros s s' A1. apply (ceq_t _ _ _ _ A1).
Qed.
Lemma ceq_init m m' cb : forall cb', ceq m m' cb cb' -> cbinit m' cb'.
Proof.
  induction cb as [cb IH] using cb_rect'. intros cb' H. destruct H as [t k kt kb V E Z V' E' Z' H1 H2 H3|t k kt kb V E l Z V' E' l' Z' H1 H2 H3]; intros a Ha.
  - inversion Ha as [? ? ? ? ? ? ? ? Hi|? ? ? Hs|? ? ? Hs]; subst; [|contradiction Hs|contradiction Hs]. destruct Hi as (i & j & Hi & Hj & ->). exists (mfun m V i j). apply H3; assumption.
  - assert (HF : forall s', In s' l' -> exists s, In s l /\ ceq m m' s s' /\ mval m' (cb_E s') (mfun m (cb_E s))).
    { intros s' Hs'. apply In_nth_error in Hs' as (i & Hs'). destruct (nth_ex l i) as [s Hs]; [apply nth_in in Hs'; lia|]. exists s. destruct (H3 _ _ _ Hs Hs') as (A1 & _ & _ & A4). apply nth_in in Hs. tauto. }
    inversion Ha as [? ? ? ? ? ? ? ? Hi E1|? s' ? Hs Hi|? s' ? Hs Hi]; subst.
    + destruct l; [congruence|discriminate H2].
    + cbn in Hs. destruct (HF _ Hs) as (s & _ & _ & A4). destruct Hi as (i & j & Hi & Hj & ->). exists (mfun m (cb_E s) i j). apply A4; assumption.
    + cbn in Hs. destruct (HF _ Hs) as (s & Hin & A1 & _). exact (IH s Hin _ A1 a Hi).
Qed.
Lemma ceq_mat m m' cb : forall cb', ceq m m' cb cb' -> cbok cb -> forall p q, p < cb_size cb -> q < cb_k cb -> cbmat m' cb' p q = cbmat m cb p q.
Proof.
  induction cb as [cb IH] using cb_rect'. intros cb' H Hok p q Hp Hq. pose proof (ceq_ok _ _ _ _ Hok H) as Hok'. destruct (ceq_t _ _ _ _ H) as (T1 & T2 & _ & _ & T5).
  pose proof (ceq_sons _ _ _ _ H) as HS.
  destruct H as [t k kt kb V E Z V' E' Z' H1 H2 H3|t k kt kb V E l Z V' E' l' Z' H1 H2 H3].
  - cbn [cbmat]. apply mfun_mval; [exact H3| |]; inversion Hok; subst; try congruence; unfold cb_size in *; cbn in *; congruence.
  - clear H2 H3. set (cb := CB t k kt kb V E l Z) in *. set (cb' := CB t k kt kb V' E' l' Z') in *.
    assert (HN : cb_son cb <> []) by exact H1. clear H1.
    rewrite (cbok_size cb Hok HN) in Hp. apply nsum_pos in Hp as (i & r & Hi & Hr & ->). destruct (nth_ex (cb_son cb) i Hi) as [s Hs]. rewrite (at_nth _ _ _ _ Hs) in Hr.
    destruct (Forall2_nth_l _ _ _ _ _ HS Hs) as (s' & Hs' & A1 & A2 & A3 & A4).
    destruct (ceq_t _ _ _ _ A1) as (B1 & B2 & _). pose proof Hs as [_ Hin]%nth_in. destruct (cbok_son _ _ Hok Hin) as (C1 & C2 & C3).
    rewrite (cbmat_node m cb i s r q Hs Hr).
    assert (EM : at_ cb_size (cb_son cb) = at_ cb_size (cb_son cb')).
    { unfold at_. erewrite at_Forall2; [reflexivity|]. apply Forall2_nth. apply Forall2_nth in HS as (L1 & L2). split; [exact L1|]. intros j a b Ha Hb. destruct (L2 j a b Ha Hb) as (X & _). unfold cb_size. destruct (ceq_t _ _ _ _ X) as (Y & _). congruence. }
    rewrite EM, (cbmat_node m' cb' i s' r q Hs' ltac:(unfold cb_size; rewrite B1; exact Hr)), B2. apply sum_ext. intros j Hj. rewrite (IH s Hin s' A1 C1 r j Hr Hj).
    f_equal. apply mfun_mval; [exact A4|lia|]. cbn [cb cb_k] in *. lia.
Qed.

(** ** Blocks *)
Lemma incb_blk cb : forall a, incb cb a -> In (fst a) (mblk (cb_V cb) :: map mblk (flat_map cbmats (cb_son cb))).
Proof.
  induction cb as [cb IH] using cb_rect'. intros a Ha. inversion Ha as [? ? ? ? ? ? ? ? Hi|? s ? Hs Hi|? s ? Hs Hi]; subst.
  - left. symmetry. apply inm_blk, Hi.
  - right. rewrite (inm_blk _ _ Hi). apply in_map. apply in_flat_map. exists s. split; [exact Hs|]. rewrite cbmats_E. right. left. reflexivity.
  - right. specialize (IH s Hs a Hi). apply in_map_iff. cbn in IH. destruct IH as [E|IH].
    + exists (cb_V s). split; [exact E|]. apply in_flat_map. exists s. split; [exact Hs|]. rewrite cbmats_E. left. reflexivity.
    + apply in_map_iff in IH as (A & EA & HA). exists A. split; [exact EA|]. apply in_flat_map. exists s. split; [exact Hs|]. rewrite cbmats_E. right. right. exact HA.
Qed.
Lemma incb_cbmats cb a : incb cb a -> In (fst a) (map mblk (cbmats cb)).
Proof. intros H. apply incb_blk in H. rewrite cbmats_E. cbn in *. tauto. Qed.
Lemma E_not_in (l : list (cbasis G)) : NoDup (map mblk (flat_map cbmats l)) ->
  forall s s1 a, In s l -> In s1 l -> incb s a -> fst a <> mblk (cb_E s1).
Proof.
  induction l as [|x l IH]; intros HN s s1 a Hs Hs1 Ha; [contradiction|].
  cbn [flat_map] in HN. rewrite map_app in HN.
  assert (HX : forall b, In b (map mblk (cbmats x)) -> ~ In b (map mblk (flat_map cbmats l))).
  { clear -HN. induction (map mblk (cbmats x)) as [|y L IHl]; intros b Hb; [contradiction|]. cbn in HN. inversion HN as [|? ? N1 N2]; subst. destruct Hb as [->|Hb].
    - intros Hc. apply N1. apply in_or_app. right. exact Hc.
    - apply IHl; assumption. }
  assert (HN1 : NoDup (map mblk (cbmats x))). { clear -HN. induction (map mblk (cbmats x)) as [|y L IHl]; [constructor|]. inversion HN as [|? ? N1 N2]; subst. constructor; [|apply IHl, N2]. intros Hc. apply N1. apply in_or_app. left. exact Hc. }
  assert (HN2 : NoDup (map mblk (flat_map cbmats l))). { clear -HN. induction (map mblk (cbmats x)) as [|y L IHl]; [exact HN|]. inversion HN; subst. apply IHl. assumption. }
  assert (HI : forall y, In y l -> forall b, In b (map mblk (cbmats y)) -> In b (map mblk (flat_map cbmats l))).
  { intros y Hy b Hb. apply in_map_iff in Hb as (A & <- & HA). apply in_map. apply in_flat_map. exists y. auto. }
  destruct Hs as [->|Hs], Hs1 as [<-|Hs1].
  - rewrite cbmats_E in HN1. cbn in HN1. apply incb_blk in Ha. inversion HN1 as [|? ? N1 N2]; subst. inversion N2 as [|? ? N3 N4]; subst. intros E. rewrite E in Ha. destruct Ha as [Ha|Ha]; [apply N1; left; symmetry; exact Ha|exact (N3 Ha)].
  - intros E. apply (HX (fst a)); [apply incb_cbmats, Ha|]. apply (HI s1 Hs1). rewrite E, cbmats_E. right. left. reflexivity.
  - intros E. apply (HX (fst a)); [rewrite E, cbmats_E; right; left; reflexivity|]. apply (HI s Hs). apply incb_cbmats, Ha.
  - exact (IH HN2 s s1 a Hs Hs1 Ha).
Qed.
Lemma NoDup_appl {A} (l l' : list A) : NoDup (l ++ l') -> NoDup l.
Proof. induction l as [|a l IH]; intros H; [constructor|]. inversion H as [|? ? N1 N2]; subst. constructor; [|apply IH, N2]. intros Hc. apply N1, in_or_app. auto. Qed.
Lemma NoDup_appx {A} (l l' : list A) a : NoDup (l ++ l') -> In a l -> ~ In a l'.
Proof. induction l as [|b l IH]; intros H Ha; [contradiction|]. inversion H as [|? ? N1 N2]; subst. destruct Ha as [->|Ha]; [intros Hc; apply N1, in_or_app; auto|apply IH; assumption]. Qed.

(** ** Cloning *)
Lemma wp_new_leaf D (t : cptr G) m Ls (Q : cbasis G -> mem K -> Prop) : lm D m Ls ->
  (forall V E m', lm D m' (V :: E :: Ls) -> next m <= mblk V -> next m <= mblk E -> mcols E = 0 -> mrows V = 0 -> mcols V = 0 -> keeps (fun a => next m <= fst a) m m' -> Q (CB t 0 0 0 V E [] None) m') ->
  wp TT TT (new_leaf_clusterbasis t) m Q.
Proof.
  intros H HQ. unfold new_leaf_clusterbasis. apply wp_bind. eapply wp_init_lm; [exact H|]. intros V m1 EV H1 K1. cbn [wp].
  apply wp_bind. eapply wp_init_lm; [exact H1|]. intros E m2 EE H2 K2. cbn [wp]. apply (HQ V E m2).
  - eapply lm_perm; [|exact H2]. apply perm_swap.
  - subst V. cbn. lia.
  - subst E. cbn. apply K1.
  - subst E. reflexivity.
  - subst V. reflexivity.
  - subst V. reflexivity.
  - eapply keeps_trans; [exact K1|]. eapply keeps_mono; [|exact K2]. intros a Ha. pose proof (proj1 K1) as HK1. cbv beta in *. lia.
Qed.


Lemma desc_son cb s (P : cbasis G -> Prop) : (forall c, cbdesc cb c -> P c) -> In s (cb_son cb) -> forall c, cbdesc s c -> P c.
Proof. intros H Hs c Hc. apply H. eapply cbdesc_son; eassumption. Qed.

Lemma init_next m cb : cbinit m cb -> forall a, incb cb a -> fst a < next m.
Proof. intros H a Ha. destruct (H a Ha) as [v Hv]. destruct (Nat.lt_ge_cases (fst a) (next m)) as [|Hl]; [assumption|]. rewrite get_next in Hv by exact Hl. discriminate. Qed.

Lemma wp_clone cb : cbok cb -> cbfull cb -> noweight cb -> forall D m Ls (Q : cbasis G -> mem K -> Prop),
  cbinit m cb -> lm D m Ls ->
  (forall cb' m', ceq m m' cb cb' -> cb_k cb' = cb_k cb -> lm D m' (cbmats cb' ++ Ls) -> (forall b, In b (map mblk (cbmats cb')) -> next m <= b) ->
     keeps (fun a => next m <= fst a) m m' -> Q cb' m') ->
  wp TT TT (clone_clusterbasis cb) m Q.
Proof.
  induction cb as [cb IH] using cb_rect'. intros Hok Hfull HZ D m Ls Q Hi HL HQ. pose proof (init_next _ _ Hi) as Hnx.
  destruct cb as [t k kt kb V E l Z]. cbn [clone_clusterbasis]. destruct l as [|s0 l0].
  - apply wp_bind. eapply wp_new_leaf; [exact HL|]. intros V0 E0 m1 L1 B1 B2 _ _ _ K1.
    apply wp_bind. unfold resize_clusterbasis. eapply wp_setrank with (rest := Ls); [exact L1|]. intros V1 E1 l' m2 cb' HV _ HS E11 E12 L2 B3 K2.
    inversion HS; subst l'. destruct (HV eq_refl) as (V11 & V12). unfold cb'. rewrite update_eq. cbn [cb_V].
    destruct (lm_own D m2 _ V1 L2 (or_introl eq_refl)) as (O1 & O2 & O3 & O4).
    pose proof (cbinit_V _ _ _ _ _ _ _ _ Hi) as HVm. cbn [cb_V] in HVm.
    assert (HNX : next m <= next m1) by apply K1.
    assert (FB : forall b, In b (map mblk (cbmats cb')) -> next m <= b).
    { intros b Hb. apply B3 in Hb as [Hb|Hb]; [|lia]. cbn in Hb. destruct Hb as [<-|[<-|[]]]; assumption. }
    assert (KA : keeps (fun a => next m <= fst a) m m2).
    { eapply keeps_trans; [exact K1|]. eapply keeps_mono; [|exact K2]. intros a [Ha|Ha]; [|lia]. cbn in Ha. destruct Ha as [<-|[<-|[]]]; assumption. }
    inversion Hok; subst; [|congruence].
    assert (HVm2 : mval m2 V (mfun m V)).
    { eapply mval_keeps; [exact HVm|exact KA|]. intros a Ha Hb. assert (fst a < next m) by (apply Hnx; constructor; exact Ha). lia. }
    apply wp_bind. eapply wp_copy_amatrix with (f := mfun m V); [exact O3|exact HVm2|exact O4| | | |lia|lia|].
    + intros a Ha Hb. apply inm_blk in Hb. assert (X1 : fst a < next m) by (apply Hnx; constructor; exact Ha).
      assert (X2 : next m <= mblk V1) by (apply FB; left; reflexivity). lia.
    + left. exact I.
    + intros a Ha. exact I.
    + intros m3 HV3 K3. cbn [tr] in HV3. cbn [wp]. apply HQ.
      * constructor; [lia|lia|exact HV3].
      * reflexivity.
      * cbn [cbmats app flat_map]. eapply lm_write; [exact L2|exact K3|]. intros i j Hii Hjj. rewrite (HV3 i j Hii Hjj). discriminate.
      * intros b Hb. apply FB. exact Hb.
      * eapply keeps_trans; [exact KA|]. eapply keeps_mono; [|exact K3]. intros a Ha. apply inm_blk in Ha. rewrite Ha. apply FB. left. reflexivity.
  - remember (s0 :: l0) as l eqn:El. set (cb := CB t k kt kb V E l Z) in *. assert (Hln : l <> []) by (subst l; discriminate).
    rewrite El. rewrite <- El. apply wp_bind. unfold new_clusterbasis. eapply wp_new_leaf; [exact HL|]. intros V0 E0 m1 L1 B1 B2 E02 _ _ K1. cbn [cb_setsons].
    assert (HNX1 : next m <= next m1) by apply K1.
    wstep. { apply Nat.eqb_eq. apply (Hfull cb); [constructor|exact Hln]. }
    apply wp_bind.
    eapply (wp_pmap _ (fun l1 bs m2 => Forall2 (fun s s' => ceq m m2 s s') l1 bs /\ lm D m2 (flat_map cbmats bs ++ V0 :: E0 :: Ls) /\
       (forall b, In b (map mblk (flat_map cbmats bs)) -> next m1 <= b) /\ keeps (fun a => next m1 <= fst a) m1 m2)).
    + split; [constructor|]. split; [exact L1|]. split; [intros b []|apply keeps_refl].
    + intros l1 s l2 bs m2 E1 (HF & HL2 & HB & HK). assert (Hin : In s l) by (rewrite E1; apply in_elt).
      assert (HNX2 : next m1 <= next m2) by apply HK.
      assert (SM : forall a, incb cb a -> get m2 a = get m a).
      { intros a Ha. rewrite (proj2 HK), (proj2 K1); [reflexivity| |]; cbv beta; specialize (Hnx a Ha); lia. }
      assert (Hi2 : cbinit m2 s). { intros a Ha. assert (HA : incb cb a) by (eapply incb_son; [exact Hin|exact Ha]). rewrite (SM a HA). apply Hi, HA. }
      apply (IH s Hin) with (D := D) (Ls := flat_map cbmats bs ++ V0 :: E0 :: Ls).
      * apply (cbok_son _ _ Hok Hin).
      * intros c Hc. apply Hfull. eapply cbdesc_son; eassumption.
      * intros c Hc. apply HZ. eapply cbdesc_son; eassumption.
      * exact Hi2.
      * exact HL2.
      * intros s' m3 C1 _ L3 B3 K3. split; [|split; [|split]].
        -- apply pmap_length_inv.
           ++ rewrite Forall2_nth in *. destruct HF as (F1 & F2). split; [exact F1|]. intros i x y Hx Hy. eapply ceq_keeps; [exact (F2 i x y Hx Hy)|exact K3|].
              intros a Ha Hb. apply incb_cbmats in Ha. assert (fst a < next m2); [|lia]. eapply lm_blk; [exact HL2|]. rewrite map_app. apply in_or_app. left.
              apply in_map_iff in Ha as (A & <- & HA). apply in_map. apply in_flat_map. exists y. split; [apply nth_in in Hy; apply Hy|exact HA].
           ++ eapply ceq_src; [exact C1|]. intros a Ha. symmetry. apply SM. eapply incb_son; [exact Hin|exact Ha].
        -- eapply lm_perm; [|exact L3]. rewrite flat_map_app. cbn [flat_map]. rewrite app_nil_r, <- app_assoc. apply Permutation_app_swap_app.
        -- intros b Hb. rewrite flat_map_app, map_app in Hb. apply in_app_or in Hb as [Hb|Hb]; [apply HB, Hb|]. cbn [flat_map] in Hb. rewrite app_nil_r in Hb. specialize (B3 b Hb). lia.
        -- eapply keeps_trans; [exact HK|]. eapply keeps_mono; [|exact K3]. cbv beta; intros a Ha; lia.
    + intros l' m2 (HF & L2 & B3 & K2). assert (HNX2 : next m1 <= next m2) by apply K2. unfold cb_setsons.
      apply wp_bind. unfold resize_clusterbasis. eapply wp_setrank with (rest := Ls).
      { eapply lm_perm; [|exact L2]. cbn [cbmats app]. eapply perm_trans; [symmetry; apply Permutation_middle|]. apply perm_skip. symmetry. apply Permutation_middle. }
      intros V3 E3 l3 m3 cb' _ HV HS E31 E32 L3 B4 K3. assert (HNX3 : next m2 <= next m3) by apply K3.
      assert (Hl' : l' <> []) by (intros ->; inversion HF; congruence).
      specialize (HV Hl'). subst V3.
      assert (Hlen : length l' = length l) by (apply Forall2_nth in HF; apply HF).
      assert (Hlen3 : length l3 = length l') by (apply Forall2_nth in HS; apply HS).
      assert (Hl3 : l3 <> []) by (intros ->; destruct l'; [congruence|discriminate]).
      assert (BF : forall b, In b (map mblk (cbmats cb')) -> next m <= b).
      { intros b Hb. apply B4 in Hb as [Hb|Hb]; [|lia]. cbn [cbmats map] in Hb. destruct Hb as [<-|[<-|Hb]]; [exact B1|exact B2|]. specialize (B3 b Hb). lia. }
      (* the copies in the new memory *)
      assert (HF3 : Forall2 (fun s s' => ceq m m3 s s' /\ mrows (cb_E s') = mrows (cb_E s) /\ mcols (cb_E s') = mcols (cb_E s)) l l3).
      { rewrite Forall2_nth. split; [lia|]. intros i s s3 Hs Hs3. destruct (Forall2_nth_r _ _ _ _ _ HS Hs3) as (s' & Hs' & ES & D1 & D2).
        destruct (Forall2_nth_l _ _ _ _ _ HF Hs) as (s'' & Hs'' & HC). assert (s'' = s') by congruence. subst s''.
        destruct (ceq_t _ _ _ _ HC) as (_ & T & _). pose proof Hs as [_ Hin]%nth_in. destruct (cbok_son _ _ Hok Hin) as (_ & Y1 & Y2). cbn [cb cb_k] in Y2.
        split; [|split; congruence]. rewrite ES. apply ceq_setE. eapply ceq_keeps; [exact HC|exact K3|].
        intros a Ha Hb. pose proof Hs' as [_ Hin']%nth_in.
        assert (HA : In (fst a) (map mblk (flat_map cbmats l'))). { apply incb_cbmats in Ha. apply in_map_iff in Ha as (A & <- & HA). apply in_map. apply in_flat_map. exists s'. auto. }
        assert (ND : NoDup (map mblk (flat_map cbmats l' ++ V0 :: E0 :: Ls))) by apply L2. rewrite map_app in ND.
        destruct Hb as [Hb|Hb].
        - unfold rkblks in Hb. destruct l' as [|x0 l'']; [congruence|]. remember (x0 :: l'') as l' eqn:El'. destruct Hb as [Hb|Hb].
          + apply (NoDup_appx _ _ _ ND HA). rewrite <- Hb. right. left. reflexivity.
          + apply in_map_iff in Hb as (s1 & Hb & Hin1). apply (E_not_in l' (NoDup_appl _ _ ND) s' s1 a Hin' Hin1 Ha). symmetry. exact Hb.
        - assert (fst a < next m2); [|lia]. eapply lm_blk; [exact L2|]. rewrite map_app. apply in_or_app. left. exact HA. }
      unfold cb' in L3 |- *. rewrite update_eq.
      replace (match l3 with [] => CB t k (k + csz t) (k + csz t) V0 E3 l3 None | _ :: _ => CB t k (k + nsum (length l3) (at_ cb_ktree l3)) (k + list_max (map cb_kbranch l3)) V0 E3 l3 None end)
        with (CB t k (k + nsum (length l3) (at_ cb_ktree l3)) (k + list_max (map cb_kbranch l3)) V0 E3 l3 None) by (destruct l3; [congruence|reflexivity]). cbn [cb_son].
      (* source matrices *)
      assert (KA : keeps (fun a => next m <= fst a) m m3).
      { eapply keeps_trans; [exact K1|]. eapply keeps_trans; [eapply keeps_mono; [|exact K2]; cbv beta; intros a Ha; lia|]. eapply keeps_mono; [|exact K3]. intros a [Ha|Ha]; [|lia].
        unfold rkblks in Ha. destruct l' as [|x0 l'']; [congruence|]. destruct Ha as [<-|Ha]; [exact B2|]. apply in_map_iff in Ha as (s1 & <- & Hin1).
        assert (next m1 <= mblk (cb_E s1)); [|lia]. apply B3. apply in_map. apply in_flat_map. exists s1. split; [exact Hin1|]. rewrite cbmats_E. right. left. reflexivity. }
      assert (ND3 : NoDup (map mblk (flat_map cbmats l3))). { destruct L3 as (_ & ND & _). rewrite map_app in ND. apply NoDup_appl in ND. cbn in ND. inversion ND as [|? ? _ ND1]; subst. inversion ND1; assumption. }
      assert (BF3 : forall s', In s' l3 -> next m <= mblk (cb_E s')).
      { intros s' Hs'. apply BF. cbn [cb' cbmats map]. right. right. apply in_map. apply in_flat_map. exists s'. split; [exact Hs'|]. rewrite cbmats_E. right. left. reflexivity. }
      apply wp_bind. apply (wp_for (fun i m4 => (forall j s s', j < i -> nth_error l j = Some s -> nth_error l3 j = Some s' -> mval m4 (cb_E s') (mfun m (cb_E s))) /\
         lm D m4 (cbmats (CB t k 0 0 V0 E3 l3 None) ++ Ls) /\ keeps (fun a => In (fst a) (map (fun s => mblk (cb_E s)) l3)) m3 m4)).
      * split; [intros j s s' Hj; lia|]. split; [exact L3|apply keeps_refl].
      * intros i m4 [_ Hii] (HM & L4 & K4). cbn in Hii. destruct (nth_ex l i Hii) as [s Hs]. destruct (Forall2_nth_l _ _ _ _ _ HF3 Hs) as (s' & Hs' & C1 & C2 & C3).
        rewrite (sget_some l i s Hs), (sget_some l3 i s' Hs'). cbn [bind].
        pose proof Hs as [_ Hin]%nth_in. pose proof Hs' as [_ Hin']%nth_in.
        assert (HinE : In (cb_E s') (flat_map cbmats l3)) by (apply in_flat_map; exists s'; split; [exact Hin'|]; rewrite cbmats_E; right; left; reflexivity).
        destruct (lm_own D m4 _ (cb_E s') L4) as (O1 & O2 & O3 & O4). { apply in_or_app. left. right. right. exact HinE. }
        assert (HES : mval m4 (cb_E s) (mfun m (cb_E s))).
        { eapply mval_keeps; [|exact K4|].
          - eapply mval_keeps; [apply (cbinit_E m cb s Hi Hin)|exact KA|]. intros a Ha Hb. assert (fst a < next m) by (apply Hnx; eapply incb_E; [exact Hin|exact Ha]). lia.
          - intros a Ha Hb. assert (fst a < next m) by (apply Hnx; eapply incb_E; [exact Hin|exact Ha]). apply in_map_iff in Hb as (s1 & Hb & Hin1). specialize (BF3 s1 Hin1). lia. }
        eapply wp_copy_amatrix with (f := mfun m (cb_E s)); [exact O3|exact HES|exact O4| | | |congruence|congruence|].
        -- intros a Ha Hb. apply inm_blk in Hb. assert (fst a < next m) by (apply Hnx; eapply incb_E; [exact Hin|exact Ha]). specialize (BF3 s' Hin'). lia.
        -- left. exact I.
        -- intros a Ha. exact I.
        -- intros m5 HV5 K5. cbn [tr] in HV5. split; [|split].
           ++ intros j s1 s1' Hj Hs1 Hs1'. destruct (Nat.eq_dec j i) as [->|Hne].
              ** assert (s1 = s) by congruence. assert (s1' = s') by congruence. subst. exact HV5.
              ** eapply mval_keeps; [apply (HM j s1 s1'); [lia|assumption|assumption]|exact K5|].
                 intros a Ha Hb. apply inm_blk in Ha, Hb.
                 apply nth_error_split in Hs1' as (p1 & p2 & Ep & Elen). rewrite Ep in Hs', ND3.
                 assert (Hin2 : In s' (p1 ++ p2)). { destruct (Nat.lt_ge_cases i j) as [Hlt|Hge].
                   - rewrite nth_error_app1 in Hs' by lia. apply in_or_app. left. apply nth_in in Hs'. apply Hs'.
                   - rewrite nth_error_app2 in Hs' by lia. destruct (i - length p1) as [|q] eqn:Eq; [lia|]. cbn in Hs'. apply in_or_app. right. apply nth_in in Hs'. apply Hs'. }
                 assert (NP : NoDup (map mblk (cbmats s1' ++ flat_map cbmats (p1 ++ p2)))).
                 { eapply Permutation_NoDup; [|exact ND3]. apply Permutation_map. rewrite !flat_map_app. cbn [flat_map]. apply Permutation_app_swap_app. }
                 rewrite map_app in NP. apply (NoDup_appx _ _ (mblk (cb_E s1')) NP); [rewrite cbmats_E; right; left; reflexivity|].
                 rewrite <- Ha, Hb. apply in_map. apply in_flat_map. exists s'. split; [exact Hin2|]. rewrite cbmats_E. right. left. reflexivity.
           ++ apply in_split in HinE as (q1 & q2 & Eq). cbn [cbmats app] in L4 |- *. rewrite Eq in *.
              assert (HP : Permutation (V0 :: E3 :: (q1 ++ cb_E s' :: q2) ++ Ls) (cb_E s' :: V0 :: E3 :: (q1 ++ q2) ++ Ls)).
              { rewrite <- !app_assoc. cbn [app]. symmetry. eapply perm_trans; [apply perm_swap|]. apply perm_skip. eapply perm_trans; [apply perm_swap|]. apply perm_skip. apply Permutation_middle. }
              apply (lm_perm _ _ _ _ (Permutation_sym HP)). eapply lm_write; [apply (lm_perm _ _ _ _ HP L4)|exact K5|]. intros p q Hp Hq. rewrite (HV5 p q Hp Hq). discriminate.
           ++ eapply keeps_trans; [exact K4|]. eapply keeps_mono; [|exact K5]. intros a Ha. apply inm_blk in Ha. rewrite Ha. apply in_map_iff. exists s'. auto.
      * intros m4 (HM & L4 & K4). assert (EZ : Z = None) by (apply (HZ cb); [constructor|exact Hln]). rewrite EZ. cbn [bind wp]. apply HQ.
        -- assert (EK : map cb_ktree l3 = map cb_ktree l /\ map cb_kbranch l3 = map cb_kbranch l).
           { split; symmetry; apply at_Forall2; apply Forall2_nth; (split; [lia|]); intros i s s' Hs Hs'; symmetry; apply Forall2_nth in HF3 as (_ & F2); destruct (F2 i s s' Hs Hs') as (C1 & _); apply (ceq_t _ _ _ _ C1). }
           destruct EK as (EK1 & EK2). unfold at_. rewrite EK1, EK2.
           inversion Hok as [|? ? ? ? ? ? ? ? N1 N2 N3 N4 N5 N6]; [congruence|]. unfold cb. rewrite N5, N6. replace (length l3) with (length l) by lia.
           apply ceq_node; [exact Hln|lia|]. intros i s s' Hs Hs'. apply Forall2_nth in HF3 as (_ & F2). destruct (F2 i s s' Hs Hs') as (C1 & C2 & C3).
           split; [|split; [exact C2|split; [exact C3|]]].
           ++ eapply ceq_keeps; [exact C1|exact K4|]. intros a Ha Hb. apply in_map_iff in Hb as (s1 & Hb & Hin1). apply (E_not_in l3 ND3 s' s1 a); [apply nth_in in Hs'; apply Hs'|exact Hin1|exact Ha|symmetry; exact Hb].
           ++ apply (HM i s s'); [apply nth_in in Hs; cbn; lia|exact Hs|exact Hs'].
        -- reflexivity.
        -- exact L4.
        -- exact BF.
        -- eapply keeps_trans; [exact KA|]. eapply keeps_mono; [|exact K4]. intros a Ha. apply in_map_iff in Ha as (s1 & <- & Hin1). apply BF3, Hin1.
Qed.
End P.
