(** * Proofs about H-matrices: clearing the upper triangular part *)
From Coq Require Import Arith Lia List Bool Ring Permutation.
From Verif Require Import Fld Ord Prog Arr View Spec Loop Cluster Block BlockP Avector AvectorP Amatrix AmatrixP AmatrixP2
  Rkmatrix RkSpec RkP Hmatrix HmSpec HmP HmP4 HmP5.
Import ListNotations.

Section HmP7.
Context {K : fops} {G : ofops}.
Implicit Types (m : mem K) (h : hmatrix G) (D : nat -> nat -> K).
Local Notation hmx := (hmatrix G).

(** The upper triangular part of [D] cleared, with or without the diagonal. *)
Definition lowpart (strict : bool) D (i j : nat) : K := if (if strict then i <? j else i <=? j) then f0 else D i j.

Section Loop.
Variables (m0 : mem K) (l : list hmx) (n : nat) (DD UU : nat -> nat -> nat -> nat -> K).
Hypothesis Hlen : length l = n * n.

Definition ST (dn : nat -> nat -> bool) (l' : list hmx) m1 : Prop :=
  length l' = n * n /\
  (forall i j s s', i < n -> j < n -> nth_error l (i + j * n) = Some s -> nth_error l' (i + j * n) = Some s' ->
     hsim s s' /\ hown m1 s' /\ hrep m1 s' (if dn i j then UU i j else DD i j) /\ (dn i j = false -> s' = s) /\
     forall b, In b (hblocks s') -> In b (hblocks s) \/ next m0 <= b) /\
  (forall k k' s s' b, k <> k' -> nth_error l' k = Some s -> nth_error l' k' = Some s' -> In b (hblocks s) -> In b (hblocks s') -> False) /\
  keeps (fun a => In (fst a) (flat_map hblocks l) \/ next m0 <= fst a) m0 m1.

Lemma ST_ext (d d' : nat -> nat -> bool) l' m1 : ST d l' m1 -> (forall i j, i < n -> j < n -> d' i j = d i j) -> ST d' l' m1.
Proof.
  intros (H1 & H2 & H3 & H4) E. split; [exact H1|]. split; [|split; assumption]. intros i j s s' Hi Hj Hs Hs'. rewrite E by assumption. auto.
Qed.

Lemma ST_step dn l' m1 i j s (p : prog K hmx) (Q : list hmx -> mem K -> Prop) : i < n -> j < n -> ST dn l' m1 -> dn i j = false -> nth_error l (i + j * n) = Some s ->
  (hown m1 s -> hrep m1 s (DD i j) -> forall Q' : hmx -> mem K -> Prop,
    (forall s2 m2, hsim s s2 -> hown m2 s2 -> hrep m2 s2 (UU i j) -> (forall b, In b (hblocks s2) -> In b (hblocks s) \/ next m1 <= b) ->
      keeps (fun a => blk_of s a \/ next m1 <= fst a) m1 m2 -> Q' s2 m2) -> wp TT TT p m1 Q') ->
  (forall l2 m2, ST (fun i' j' => dn i' j' || ((i' =? i) && (j' =? j))) l2 m2 -> Q l2 m2) ->
  wp TT TT (s' <- p ;; Ret (lupd l' (i + j * n) s')) m1 Q.
Proof.
  intros Hi Hj (S1 & S2 & S3 & S4) Hdn Hs Hp HQ.
  assert (Hlt : i + j * n < n * n) by (apply pos_lt; assumption).
  destruct (nth_ex l' (i + j * n)) as [s' Hs']; [lia|].
  destruct (S2 i j s s' Hi Hj Hs Hs') as (A1 & A2 & A3 & A4 & A5). rewrite Hdn in A3. specialize (A4 Hdn). subst s'.
  apply wp_bind. apply Hp; [exact A2|exact A3|]. intros s2 m2 B1 B2 B3 B4 B5. cbn [wp]. apply HQ.
  pose proof (proj1 S4) as N0. pose proof (proj1 B5) as N1.
  assert (Hoth : forall k t, k <> i + j * n -> nth_error l' k = Some t -> forall b, In b (hblocks t) -> b < next m1 /\ ~ In b (hblocks s)).
  { intros k t Hk Ht b Hb. split.
    - assert (Hkl : k < n * n) by (apply nth_lt in Ht; lia). destruct (flat_index k n n Hkl) as (i' & j' & Hi' & Hj' & ->).
      destruct (nth_ex l (i' + j' * n)) as [t0 Ht0]; [lia|]. destruct (S2 i' j' t0 t Hi' Hj' Ht0 Ht) as (_ & [C1 _] & _). eapply hstr_bound; eauto.
    - intros Hb'. eapply (S3 k (i + j * n) t s b); eauto. }
  split; [rewrite lupd_length; exact S1|]. split; [|split].
  - intros i' j' t t' Hi' Hj' Ht Ht'. rewrite lupd_nth, S1 in Ht'. destruct (Nat.eqb_spec (i' + j' * n) (i + j * n)) as [E|N].
    + apply flat_inj in E as [-> ->]; try assumption. rewrite (proj2 (Nat.ltb_lt _ _) Hlt) in Ht'. cbn in Ht'. injection Ht' as <-.
      assert (t = s) by congruence. subst t. rewrite Hdn, !Nat.eqb_refl. cbn [orb andb]. split; [exact B1|]. split; [exact B2|]. split; [exact B3|]. split; [discriminate|].
      intros b Hb. destruct (B4 b Hb); [left; assumption|right; lia].
    + cbn in Ht'. destruct (S2 i' j' t t' Hi' Hj' Ht Ht') as (C1 & [C2 C2'] & C3 & C4 & C5).
      assert (Hne : (i' =? i) && (j' =? j) = false).
      { destruct (Nat.eqb_spec i' i); [|reflexivity]. destruct (Nat.eqb_spec j' j); [subst; lia|reflexivity]. }
      rewrite Hne, orb_false_r.
      assert (Hk : forall a, In (fst a) (hblocks t') -> ~ (blk_of s a \/ next m1 <= fst a)).
      { intros a Ha. destruct (Hoth _ t' N Ht' (fst a) Ha) as [X1 X2]. unfold blk_of. intros [X|X]; [exact (X2 X)|lia]. }
      split; [exact C1|]. split; [split; [eapply hstr_blk; [exact C2|exact B5|exact Hk]|exact C2']|]. split; [eapply hrep_blk; [exact C3|exact B5|exact Hk]|]. auto.
  - intros k k' t t' b Hkk Ht Ht' Hb Hb'. rewrite lupd_nth, S1 in Ht, Ht'.
    assert (Hnew : forall k t, k <> i + j * n -> nth_error l' k = Some t -> In b (hblocks t) -> In b (hblocks s2) -> False).
    { intros k0 t0 Hk0 Ht0 Hb0 Hb2. destruct (Hoth k0 t0 Hk0 Ht0 b Hb0) as [X1 X2]. destruct (B4 b Hb2) as [X|X]; [exact (X2 X)|lia]. }
    destruct (Nat.eqb_spec k (i + j * n)) as [E|N]; destruct (Nat.eqb_spec k' (i + j * n)) as [E'|N']; [lia| | |].
    + subst k. rewrite (proj2 (Nat.ltb_lt _ _) Hlt) in Ht. cbn in Ht. injection Ht as <-. cbn in Ht'. eapply Hnew; eauto.
    + subst k'. rewrite (proj2 (Nat.ltb_lt _ _) Hlt) in Ht'. cbn in Ht'. injection Ht' as <-. cbn in Ht. eapply Hnew; eauto.
    + cbn in Ht, Ht'. exact (S3 k k' t t' b Hkk Ht Ht' Hb Hb').
  - eapply keeps_trans; (eapply keeps_mono; [|eassumption]); cbv beta; [auto|]. intros a [Ha|Ha]; [left|right; lia].
    apply in_flat_map. exists s. split; [eapply nth_error_In; exact Hs|exact Ha].
Qed.
End Loop.

Lemma nodup_intro {A} (f : A -> list nat) (l : list A) : (forall s, In s l -> NoDup (f s)) ->
  (forall k k' s s' b, k <> k' -> nth_error l k = Some s -> nth_error l k' = Some s' -> In b (f s) -> In b (f s') -> False) -> NoDup (flat_map f l).
Proof.
  induction l as [|a l IH]; intros H1 H2; [constructor|]. cbn. apply NoDup_app_intro.
  - apply H1. left. reflexivity.
  - apply IH; [intros; apply H1; right; assumption|]. intros k k' s s' b Hk Hs Hs'. apply (H2 (S k) (S k') s s' b); auto.
  - intros b Hb Hb'. apply in_flat_map in Hb'. destruct Hb' as (s & Hs & Hbs). apply In_nth_error in Hs. destruct Hs as [k Hk].
    apply (H2 0 (S k) a s b); auto.
Qed.

Lemma wp_clear_upper_h strict h : forall m D (Q : hmx -> mem K -> Prop), hown m h -> hrep m h D -> hsquare h ->
  (forall h' m', hsim h h' -> hown m' h' -> hrep m' h' (lowpart strict D) -> (forall b, In b (hblocks h') -> In b (hblocks h) \/ next m <= b) ->
     keeps (fun a => blk_of h a \/ next m <= fst a) m m' -> Q h' m') ->
  wp TT TT (clear_upper_hmatrix strict h) m Q.
Proof.
  induction h as [h IH] using hm_rect'. intros m D Q [Hst Hnd] HD Hsq HQ.
  destruct Hsq as [rc f ds|rc l n ds hs Hsz Hdg].
  - inversion Hst as [|? ? ? ? E1 E2 E3 E4 E5 E6|]; subst. inversion HD as [|? ? ? ? ? F1 F2 Hf|]; subst.
    cbn [clear_upper_hmatrix have_f hm_f bind]. rewrite cp_eqb_refl. cbn [passert bind].
    eapply (wp_full_leaf m rc rc f ds (clear_upper_amatrix f strict) (lowpart strict D)); auto.
    + intros Q' HQ'. eapply wp_clear_upper_amatrix; [exact E5|exact Hf|apply wrokT| |exact HQ'].
      destruct strict; [left; reflexivity|]. destruct (Nat.eq_dec (mrows f) 0) as [E|E]; [right; right; lia|right; left; lia].
    + intros m' H1 H2 H3 H4 H5 H6 H7. apply HQ; auto.
      * split; assumption.
      * eapply keeps_mono; [|exact H7]. cbv beta. intros a [[_ Ha]|Ha]; [left|right]; exact Ha.
  - inversion Hst as [| |? ? ? ? ? ? hs1 ws1 P1 P2 P3 P4 P5 P6 P7]; subst. inversion HD as [| |? ? ? ? ? ? hs2 ws2 ? Q1 Q2 Q3 Q4 Q5 Q6 Q7]; subst.
    assert (Eh : forall i, i < n -> hs2 i = hs i).
    { intros i Hi. destruct (nth_ex l (i + 0 * n)) as [s Hs]; [rewrite P3; apply pos_lt; lia|].
      destruct (Q6 i 0 s Hi P2 Hs). destruct (Hsz i 0 s Hi P2 Hs). congruence. }
    assert (Ew : forall j, j < n -> ws2 j = hs j).
    { intros j Hj. destruct (nth_ex l (0 + j * n)) as [s Hs]; [rewrite P3; apply pos_lt; lia|].
      destruct (Q6 0 j s P1 Hj Hs). destruct (Hsz 0 j s P1 Hj Hs). congruence. }
    assert (Sh : forall i, i <= n -> nsum i hs2 = nsum i hs) by (intros i Hi; apply nsum_ext; intros; apply Eh; lia).
    assert (Sw : forall i, i <= n -> nsum i ws2 = nsum i hs) by (intros i Hi; apply nsum_ext; intros; apply Ew; lia).
    cbn in Hnd.
    set (DD := fun i j p q => D (nsum i hs + p) (nsum j hs + q)).
    set (UU := fun i j p q => lowpart strict D (nsum i hs + p) (nsum j hs + q)).
    assert (HDD : forall i j s, i < n -> j < n -> nth_error l (i + j * n) = Some s -> hrep m s (DD i j)).
    { intros i j s Hi Hj Hs. pose proof (Q7 i j s Hi Hj Hs) as Hq. rewrite Sh, Sw in Hq by lia. exact Hq. }
    cbn [clear_upper_hmatrix]. apply wp_bind.
    set (dn := fun jc ic i j => (j <? jc) && (i <=? j) || (j =? jc) && (i <? ic)).
    assert (Hsum : forall i j, i < j < n -> nsum i hs + hs i <= nsum j hs).
    { intros i j Hij. change (nsum i hs + hs i) with (nsum (S i) hs). clear -Hij. assert (Hle : S i <= j) by lia. clear Hij.
      induction Hle; [lia|]. change (nsum (S m) hs) with (nsum m hs + hs m). lia. }
    apply (wp_forS (fun j l' m1 => ST m l n DD UU (dn j 0) l' m1)).
    + split; [exact P3|]. split; [|split].
      * intros i j s s' Hi Hj Hs Hs'. assert (s' = s) by congruence. subst s'. pose proof (nth_error_In _ _ Hs) as Hin.
        assert (dn 0 0 i j = false) as -> by (unfold dn; destruct (Nat.ltb_spec j 0); [lia|]; destruct (Nat.eqb_spec j 0); reflexivity).
        split; [|split; [split; [auto|eapply nodup_part; eauto]|split; [auto|split; [auto|auto]]]].
        clear -P7 Hin. specialize (P7 s Hin). clear Hin. induction P7 as [| |rc cc l' rs cs ds' hs ws B1 B2 B3 B4 B5 B6 B7 IH]; [constructor|constructor|].
        constructor. clear -IH. induction l' as [|a l' IHl]; constructor; [apply IH; left; reflexivity|]. apply IHl. intros; apply IH; right; assumption.
      * intros k k' s s' b Hkk Hs Hs' Hb Hb'. exact (nodup_flat hblocks l k k' s s' b Hnd Hs Hs' Hkk Hb Hb').
      * apply keeps_refl.
    + intros j l1 m1 [_ Hj] HS1. cbn in Hj. apply wp_bind. rewrite Nat.min_l by lia.
      apply (wp_forS (fun i l' m1 => ST m l n DD UU (dn j i) l' m1)).
      * exact HS1.
      * intros i l2 m2 [_ Hi] HS2. cbn in Hi.
        destruct (nth_ex l (i + j * n)) as [s Hs]; [rewrite P3; apply pos_lt; lia|].
        rewrite (sget_some _ _ (clear_hmatrix (K := K) s, clear_upper_hmatrix strict s, s)) by (rewrite nth_error_map, Hs; reflexivity). cbn [bind fst snd].
        eapply (ST_step m l n DD UU P3 (dn j i) l2 m2 i j s); [lia|lia|exact HS2| |exact Hs| |].
        -- unfold dn. destruct (Nat.ltb_spec j j); [lia|]. destruct (Nat.ltb_spec i i); [lia|]. rewrite andb_false_r. reflexivity.
        -- intros O1 H1 Q' HQ'. apply wp_clear_h; [exact O1|]. intros s2 m3 B1 B2 B3 B4 B5. apply HQ'; auto.
           eapply hrep_ext; [exact B3|]. apply hsim_rc in B1. destruct B1 as [-> ->]. destruct (Hsz i j s) as [-> ->]; [lia|lia|exact Hs|].
           intros p q Hp Hq. unfold UU, lowpart. pose proof (Hsum i j ltac:(lia)).
           destruct strict; [rewrite (proj2 (Nat.ltb_lt _ _)) by lia|rewrite (proj2 (Nat.leb_le _ _)) by lia]; reflexivity.
        -- intros l3 m3 HS3. eapply ST_ext; [exact HS3|]. intros i' j' Hi' Hj'. cbv beta. unfold dn.
           apply Bool.eq_iff_eq_true. repeat rewrite ?orb_true_iff, ?andb_true_iff, ?Nat.ltb_lt, ?Nat.leb_le, ?Nat.eqb_eq. lia.
      * intros l2 m2 HS2. cbn in HS2. rewrite (proj2 (Nat.ltb_lt j n)) by lia.
        destruct (nth_ex l (j + j * n)) as [s Hs]; [rewrite P3; apply pos_lt; lia|].
        rewrite (sget_some _ _ (clear_hmatrix (K := K) s, clear_upper_hmatrix strict s, s)) by (rewrite nth_error_map, Hs; reflexivity). cbn [bind fst snd].
        pose proof (nth_error_In _ _ Hs) as Hin.
        eapply (ST_step m l n DD UU P3 (dn j j) l2 m2 j j s); [lia|lia|exact HS2| |exact Hs| |].
        -- unfold dn. destruct (Nat.ltb_spec j j); [lia|]. rewrite andb_false_r. reflexivity.
        -- intros O1 H1 Q' HQ'. apply (IH l s eq_refl Hin m2 (DD j j)); auto; [eapply Hdg; eauto|].
           intros s2 m3 B1 B2 B3 B4 B5. apply HQ'; auto. eapply hrep_ext; [exact B3|]. intros p q Hp Hq. unfold UU, DD, lowpart.
           assert (E1 : (nsum j hs + p <? nsum j hs + q) = (p <? q)) by (apply Bool.eq_iff_eq_true; rewrite !Nat.ltb_lt; lia).
           assert (E2 : (nsum j hs + p <=? nsum j hs + q) = (p <=? q)) by (apply Bool.eq_iff_eq_true; rewrite !Nat.leb_le; lia).
           rewrite E1, E2. reflexivity.
        -- intros l3 m3 HS3. eapply ST_ext; [exact HS3|]. intros i' j' Hi' Hj'. cbv beta. unfold dn.
           apply Bool.eq_iff_eq_true. repeat rewrite ?orb_true_iff, ?andb_true_iff, ?Nat.ltb_lt, ?Nat.leb_le, ?Nat.eqb_eq. lia.
    + intros l1 m1 (S1 & S2 & S3 & S4). cbn in S2. cbn [wp].
      assert (Hdn : forall i j s', i < n -> j < n -> nth_error l1 (i + j * n) = Some s' -> hrep m1 s' (UU i j)).
      { intros i j s' Hi Hj Hs'. destruct (nth_ex l (i + j * n)) as [s Hs]; [rewrite P3; apply pos_lt; lia|].
        destruct (S2 i j s s' Hi Hj Hs Hs') as (A1 & A2 & A3 & A4 & A5). unfold dn in A3. rewrite (proj2 (Nat.ltb_lt j n)) in A3 by lia.
        destruct (Nat.eqb_spec j n); [lia|]. rewrite andb_true_l, andb_false_l, orb_false_r in A3. destruct (Nat.leb_spec i j); [exact A3|].
        eapply hrep_ext; [exact A3|]. apply hsim_rc in A1. destruct A1 as [-> ->]. destruct (Hsz i j s Hi Hj Hs) as [-> ->].
        intros p q Hp Hq. unfold UU, DD, lowpart. pose proof (Hsum j i ltac:(lia)).
        destruct strict; [rewrite (proj2 (Nat.ltb_ge _ _)) by lia|rewrite (proj2 (Nat.leb_gt _ _)) by lia]; reflexivity. }
      assert (Hall : forall k s', nth_error l1 k = Some s' -> exists s, nth_error l k = Some s /\ hsim s s' /\ hown m1 s' /\ forall b, In b (hblocks s') -> In b (hblocks s) \/ next m <= b).
      { intros k s' Hs'. assert (Hkl : k < n * n) by (apply nth_lt in Hs'; lia). destruct (flat_index k n n Hkl) as (i & j & Hi & Hj & ->).
        destruct (nth_ex l (i + j * n)) as [s Hs]; [lia|]. exists s. destruct (S2 i j s s' Hi Hj Hs Hs') as (A1 & A2 & A3 & A4 & A5). auto. }
      apply HQ.
      * constructor. apply Forall2_nth_error; [lia|]. intros k x y Hx Hy. destruct (Hall k y Hy) as (s & Hs & H1 & _). congruence.
      * split.
        -- apply (hstr_super _ _ _ _ _ _ _ hs1 ws1); auto.
           ++ intros i j s' Hi Hj Hs'. destruct (Hall _ _ Hs') as (s & Hs & H1 & _). apply hsim_rc in H1. destruct H1 as [-> ->]. eauto.
           ++ intros s' Hs'. apply In_nth_error in Hs'. destruct Hs' as [k Hk]. destruct (Hall _ _ Hk) as (s & Hs & H1 & [H2 _] & _). exact H2.
        -- cbn. apply nodup_intro; [|exact S3]. intros s' Hs'. apply In_nth_error in Hs'. destruct Hs' as [k Hk]. destruct (Hall _ _ Hk) as (s & Hs & H1 & [_ H2] & _). exact H2.
      * apply (hrep_super _ _ _ _ _ _ _ hs hs); auto.
        -- rewrite <- Q4. symmetry. apply Sh. lia.
        -- rewrite <- Q5. symmetry. apply Sw. lia.
        -- intros i j s' Hi Hj Hs'. destruct (Hall _ _ Hs') as (s & Hs & H1 & _). apply hsim_rc in H1. destruct H1 as [-> ->]. eauto.
      * cbn. intros b Hb. apply in_flat_map in Hb. destruct Hb as (s' & Hs' & Hb). apply In_nth_error in Hs'. destruct Hs' as [k Hk].
        destruct (Hall _ _ Hk) as (s & Hs & _ & _ & H2). destruct (H2 b Hb) as [X|X]; [left|right; exact X].
        apply in_flat_map. exists s. split; [eapply nth_error_In; exact Hs|exact X].
      * exact S4.
Qed.
End HmP7.
