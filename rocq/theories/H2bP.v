(** * Construction of H2-matrices: loops over submatrices *)
From Coq Require Import Arith Lia List Bool Permutation.
From Verif Require Import Fld Ord Prog Arr View Loop Spec Cluster ClusterSpec Block BlockSpec BlockP BlockP2 Avector Amatrix AmatrixP AmatrixP2 RkP Hmatrix HmSpec HmP HmP4 HmP5 HmP6
  Clusterbasis CbSpec CbP CbP2 Cbmgr CbmSpec CbmP OrthoP OrthoP3 CopP H2matrix H2Spec H2P H2build H2bSpec.
Import ListNotations.

Lemma flat_nth {A B} (f : A -> list B) l k s : nth_error l k = Some s ->
  flat_map f l = flat_map f (firstn k l) ++ f s ++ flat_map f (skipn (S k) l).
Proof.
  revert k. induction l as [|a l IH]; intros [|k] Hk; cbn in Hk; try discriminate.
  - injection Hk as ->. reflexivity.
  - cbn [firstn flat_map skipn]. rewrite (IH k Hk), <- app_assoc. reflexivity.
Qed.
Lemma flat_incl {A B} (f : A -> list B) l s : In s l -> incl (f s) (flat_map f l).
Proof. intros Hs b Hb. apply in_flat_map. exists s. auto. Qed.

Section P.
Context {K : fops} {G : ofops}.
Local Notation h2x := (h2matrix G).
Local Notation cbx := (cbasis G).
Implicit Types (m : mem K) (h : h2matrix G) (D : nat -> Prop) (Ls X : list mat).

Definition oml (o : option mat) : list mat := match o with Some A => [A] | None => [] end.
Lemma h2mats_eq (rb cb : cbx) u f son rs cs ds : h2mats (H2 rb cb u f son rs cs ds) = oml u ++ oml f ++ match son with Some l => flat_map h2mats l | None => [] end.
Proof. reflexivity. Qed.
Lemma inh2_mats h a : inh2 h a -> In (fst a) (map mblk (h2mats h)).
Proof.
  induction 1 as [h u a E Ha|h f a E Ha|h l s a E Hs Ha IH]; destruct h as [rb cb u0 f0 son rs cs ds]; cbn [h2_u h2_f h2_son] in E; subst; rewrite h2mats_eq, !map_app, !in_app_iff.
  - left. apply inm_blk in Ha. left. symmetry. exact Ha.
  - right. left. apply inm_blk in Ha. left. symmetry. exact Ha.
  - right. right. apply in_map_iff in IH as (A & EA & HA). apply in_map_iff. exists A. split; [exact EA|]. eapply flat_incl; eassumption.
Qed.
Lemma h2rep_same M m m' h (Dm : nat -> nat -> K) X : h2rep M m h Dm -> same X m m' -> incl (h2mats h) X -> h2rep M m' h Dm.
Proof.
  intros Hr Hs Hi. eapply h2rep_keeps; [exact Hr|exact Hs|]. intros a Ha Hn. apply Hn. apply inh2_mats in Ha. apply in_map_iff in Ha as (A & EA & HA).
  apply in_map_iff. exists A. split; [exact EA|apply Hi, HA].
Qed.
Lemma lm_app_l D m X Y : lm D m (X ++ Y) -> Forall (matown m) X /\ NoDup (map mblk X).
Proof.
  intros (H1 & H3 & _). apply Forall_app in H1 as [H1 _]. split; [exact H1|]. rewrite map_app in H3. eapply NoDup_app_l. exact H3.
Qed.

(** ** Loops over the sons that change their matrices *)
Section Inplace.
Variables (D : nat -> Prop) (l : list h2x) (X : list mat) (m0 : mem K) (Pre Post : nat -> h2x -> mem K -> Prop).
Hypothesis Prest : forall k s m m', nth_error l k = Some s -> Pre k s m -> same (h2mats s ++ X) m m' -> Pre k s m'.
Hypothesis Postst : forall k s m m', nth_error l k = Some s -> Post k s m -> same (h2mats s ++ X) m m' -> Post k s m'.
Definition inpl (n : nat) (m : mem K) : Prop :=
  (forall k s, nth_error l k = Some s -> if k <? n then Post k s m else Pre k s m) /\ lm D m (flat_map h2mats l ++ X) /\ kb (map mblk (flat_map h2mats l)) m0 m.

Lemma inpl_step k s (p : prog K unit) m1 (Q : unit -> mem K -> Prop) : nth_error l k = Some s -> inpl k m1 ->
  (forall Ls, Pre k s m1 -> lm D m1 (h2mats s ++ Ls) -> incl X Ls ->
     wp TT TT p m1 (fun _ m2 => Post k s m2 /\ lm D m2 (h2mats s ++ Ls) /\ kb (map mblk (h2mats s)) m1 m2)) ->
  (forall m2, inpl (S k) m2 -> Q tt m2) -> wp TT TT p m1 Q.
Proof.
  intros Hs (HP & HL & HK) Hp HQ. pose proof (flat_nth h2mats l k s Hs) as EF. set (R := flat_map h2mats (firstn k l) ++ flat_map h2mats (skipn (S k) l)).
  assert (HL1 : lm D m1 (h2mats s ++ R ++ X)) by (eapply lm_perm; [|exact HL]; rewrite EF; unfold R; perm).
  eapply wp_conseq; [apply (Hp (R ++ X))|].
  - pose proof (HP k s Hs) as H1. destruct (Nat.ltb_spec k k); [lia|exact H1].
  - exact HL1.
  - apply incl_appr, incl_refl.
  - cbv beta. intros [] m2 (H1 & H3 & H4). apply HQ. split; [|split].
    + intros k' s' Hs'. pose proof (HP k' s' Hs') as H5. destruct (Nat.eq_dec k' k) as [->|Hne].
      * rewrite Hs in Hs'. injection Hs' as <-. destruct (Nat.ltb_spec k (S k)); [exact H1|lia].
      * assert (Hsm : same (h2mats s' ++ X) m1 m2).
        { assert (HA : incl (h2mats s' ++ X) (R ++ X)).
          { apply incl_app; [apply incl_appl|apply incl_appr, incl_refl]. unfold R. destruct (Nat.lt_ge_cases k' k) as [Hlt|Hge].
            - apply incl_appl. apply flat_incl. eapply nth_error_In with (n := k'). rewrite <- (firstn_skipn k l) in Hs'. rewrite nth_error_app1 in Hs'; [exact Hs'|].
              rewrite firstn_length_le; [exact Hlt|]. apply nth_lt in Hs. lia.
            - apply incl_appr. apply flat_incl. eapply nth_error_In with (n := k' - S k). rewrite <- (firstn_skipn (S k) l) in Hs'. apply nth_lt in Hs.
              rewrite nth_error_app2 in Hs'; rewrite firstn_length_le in * by lia; [exact Hs'|lia]. }
          eapply same_sub; [|exact HA]. eapply (same_lm D (R ++ X) (h2mats s) []); [eapply lm_perm; [|exact HL1]; perm|exact H4|apply incl_refl]. }
        destruct (Nat.ltb_spec k' k), (Nat.ltb_spec k' (S k)); try lia; [eapply Postst|eapply Prest]; eassumption.
    + eapply lm_perm; [|exact H3]. rewrite EF. unfold R. perm.
    + eapply kb_trans; [exact HK|exact H4|auto|]. intros b Hb. left. rewrite EF, !map_app, !in_app_iff. auto.
Qed.
Lemma inpl_0 : (forall k s, nth_error l k = Some s -> Pre k s m0) -> lm D m0 (flat_map h2mats l ++ X) -> inpl 0 m0.
Proof. intros H1 H3. split; [|split; [exact H3|apply kb_refl]]. intros k s Hs. destruct (Nat.ltb_spec k 0); [lia|]. apply H1, Hs. Qed.
Lemma inpl_end m : inpl (length l) m -> (forall k s, nth_error l k = Some s -> Post k s m) /\ lm D m (flat_map h2mats l ++ X) /\ kb (map mblk (flat_map h2mats l)) m0 m.
Proof. intros (H1 & H3 & H4). split; [|auto]. intros k s Hs. pose proof (H1 k s Hs). destruct (Nat.ltb_spec k (length l)); [assumption|]. apply nth_lt in Hs. lia. Qed.
End Inplace.

(** ** [each_h2] *)
Inductive h2shape : h2x -> Prop :=
| h2shape_leaf (rb cb : cbx) u f rs cs ds : h2shape (H2 rb cb u f None rs cs ds)
| h2shape_super (rb cb : cbx) l rs cs ds : length l = rs * cs -> (forall s, In s l -> h2shape s) -> h2shape (H2 rb cb None None (Some l) rs cs ds).
Lemma fit_shape h : h2fit h -> h2shape h.
Proof.
  induction h as [h IH] using h2_rect'. intros Hf. inversion Hf as [| | |rb cb l R C ds S1 S2 El Hs]; subst; try constructor; [exact El|].
  intros s Hin. apply (IH l s eq_refl Hin). apply In_nth_error in Hin as [k Hk]. destruct (flat_index k (length R) (length C)) as (i & j & Hi & Hj & ->); [rewrite <- El; eapply nth_lt; exact Hk|].
  apply (Hs i j s Hi Hj Hk).
Qed.

Section Each.
Variables (D : nat -> Prop) (leaf : h2x -> prog K unit) (X : list mat) (root : h2x) (Pre Post : mem K -> h2x -> Prop).
Hypothesis Prest : forall s m m', In s (h2leaves root) -> Pre m s -> same (h2mats s ++ X) m m' -> Pre m' s.
Hypothesis Postst : forall s m m', In s (h2leaves root) -> Post m s -> same (h2mats s ++ X) m m' -> Post m' s.
Hypothesis leafok : forall s m Ls, In s (h2leaves root) -> h2_son s = None -> Pre m s -> lm D m (h2mats s ++ Ls) -> incl X Ls ->
  wp TT TT (leaf s) m (fun _ m' => Post m' s /\ lm D m' (h2mats s ++ Ls) /\ kb (map mblk (h2mats s)) m m').

Lemma leaf_mats h s : In s (h2leaves h) -> incl (h2mats s) (h2mats h).
Proof.
  induction h as [h IH] using h2_rect'. destruct h as [rb cb u f [l|] rs cs ds]; cbn [h2leaves].
  - intros Hs. apply in_flat_map in Hs as (t & Ht & Hs). intros A HA. rewrite h2mats_eq. apply in_or_app. right. apply in_or_app. right.
    eapply flat_incl; [exact Ht|]. eapply (IH l t eq_refl Ht Hs). exact HA.
  - intros [<-|[]]. apply incl_refl.
Qed.
Lemma wp_each h : forall m Ls, h2shape h -> incl (h2leaves h) (h2leaves root) -> (forall s, In s (h2leaves h) -> Pre m s) -> lm D m (h2mats h ++ Ls) -> incl X Ls ->
  wp TT TT (each_h2 leaf h) m (fun _ m' => (forall s, In s (h2leaves h) -> Post m' s) /\ lm D m' (h2mats h ++ Ls) /\ kb (map mblk (h2mats h)) m m').
Proof.
  induction h as [h IH] using h2_rect'. intros m Ls Hsh Hin HP HL HX. destruct Hsh as [rb cb u f rs cs ds|rb cb l rs cs ds El Hs].
  - cbn [each_h2]. eapply wp_conseq; [apply (leafok (H2 rb cb u f None rs cs ds) m Ls)|]; auto.
    + apply Hin. left. reflexivity.
    + apply HP. left. reflexivity.
    + cbv beta. intros [] m' (H1 & H3 & H4). split; [intros s [<-|[]]; exact H1|auto].
  - cbn [each_h2]. cbn [h2leaves h2mats app] in *.
    assert (Hsub : forall k s t, nth_error l k = Some s -> In t (h2leaves s) -> In t (h2leaves root)).
    { intros k s t Hk Ht. apply Hin, in_flat_map. exists s. split; [eapply nth_error_In; exact Hk|exact Ht]. }
    assert (Hst : forall (R : mem K -> h2x -> Prop), (forall s m m', In s (h2leaves root) -> R m s -> same (h2mats s ++ X) m m' -> R m' s) ->
      forall k s m m', nth_error l k = Some s -> (forall t, In t (h2leaves s) -> R m t) -> same (h2mats s ++ Ls) m m' -> forall t, In t (h2leaves s) -> R m' t).
    { intros R HR k s m1 m2 Hk H1 Hsm t Ht. eapply HR; [eapply Hsub; eassumption|apply H1, Ht|]. eapply same_sub; [exact Hsm|].
      apply incl_app; [apply incl_appl, leaf_mats, Ht|apply incl_appr, HX]. }
    eapply (wp_sonloop (fun k (_ : unit) => inpl D l Ls m (fun _ s m => forall t, In t (h2leaves s) -> Pre m t) (fun _ s m => forall t, In t (h2leaves s) -> Post m t) k)).
    + apply inpl_0; [|exact HL]. intros k s Hk t Ht. apply HP, in_flat_map. exists s. split; [eapply nth_error_In; exact Hk|exact Ht].
    + intros k _ m1 Hk HI. destruct (nth_ex l k) as [s Es]; [lia|]. rewrite (sget_some _ _ (each_h2 leaf s)) by (rewrite nth_error_map, Es; reflexivity). cbn [bind].
      eapply inpl_step; [exact (Hst Pre Prest)|exact (Hst Post Postst)|exact Es|exact HI| |].
      * intros Ls1 H1 H3 H4. eapply wp_conseq; [apply (IH l s eq_refl (nth_error_In _ _ Es) m1 Ls1)|]; auto.
        -- apply Hs. eapply nth_error_In. exact Es.
        -- intros t Ht. eapply Hsub; eassumption.
        -- eapply incl_tran; eassumption.
      * intros m2 H1. rewrite Nat.add_1_r. exact H1.
    + intros [] m1 HI. rewrite <- El in HI. apply inpl_end in HI as (H1 & H3 & H4). split; [|split; [exact H3|exact H4]].
      intros s Hs'. apply in_flat_map in Hs' as (t & Ht & Hst'). apply In_nth_error in Ht as [k Hk]. eapply H1; eassumption.
Qed.
End Each.

(** ** Loops that construct sons *)
Section New.
Variables (D : nat -> Prop) (rs cs : nat) (ob : nat -> list h2x -> prog K (list h2x)) (bd : nat -> nat -> list h2x -> prog K (list h2x)) (q : nat -> nat -> prog K h2x).
Variables (m0 : mem K) (X : list mat) (P : nat -> nat -> h2x -> mem K -> Prop).
Hypothesis Hob : forall j l, j < cs -> ob j l = forS 0 rs (bd j) l.
Hypothesis Hbd : forall i j l, i < rs -> j < cs -> bd j i l = bind (q i j) (fun s => Ret (l ++ [s])).
Hypothesis Pst : forall i j s m m', P i j s m -> same (h2mats s) m m' -> P i j s m'.
Hypothesis Hq : forall i j m1 Ls, i < rs -> j < cs -> kb [] m0 m1 -> lm D m1 Ls -> incl X Ls ->
  wp TT TT (q i j) m1 (fun s m2 => P i j s m2 /\ lm D m2 (h2mats s ++ Ls) /\ (forall A, In A (h2mats s) -> next m1 <= mblk A) /\ kb [] m1 m2).

Definition built (k : nat) (l : list h2x) (m : mem K) : Prop :=
  length l = k /\ (forall i j s, i < rs -> j < cs -> nth_error l (i + j * rs) = Some s -> P i j s m) /\ lm D m (flat_map h2mats l ++ X) /\
  (forall A, In A (flat_map h2mats l) -> next m0 <= mblk A) /\ kb [] m0 m.

Lemma built_step i j l m1 (Q : list h2x -> mem K -> Prop) : i < rs -> j < cs -> built (i + j * rs) l m1 ->
  (forall l' m2, built (S (i + j * rs)) l' m2 -> Q l' m2) -> wp TT TT (bd j i l) m1 Q.
Proof.
  intros Hi Hj (El & HP & HL & HN & HK) HQ. rewrite Hbd by assumption. apply wp_bind. eapply wp_conseq; [apply (Hq i j m1 _ Hi Hj HK HL); apply incl_appr, incl_refl|].
  cbv beta. intros s m2 (H1 & H3 & H4 & H5). cbn [wp]. apply HQ. pose proof (kb_next _ _ _ HK) as N1. split; [rewrite app_length; cbn; lia|]. split; [|split; [|split]].
  - intros i' j' s' Hi' Hj' Hs'. destruct (Nat.lt_ge_cases (i' + j' * rs) (length l)) as [Hlt|Hge].
    + rewrite nth_error_app1 in Hs' by exact Hlt. eapply Pst; [eapply HP; eassumption|]. eapply same_sub; [|eapply (flat_incl h2mats); eapply nth_error_In; exact Hs'].
      eapply (same_lm D _ X []); [rewrite app_nil_r; exact HL|exact H5|intros b []].
    + rewrite nth_error_app2 in Hs' by exact Hge. destruct (i' + j' * rs - length l) as [|d] eqn:E; [|destruct d; discriminate]. injection Hs' as <-.
      assert (j' = j /\ i' = i) as [-> ->]; [|exact H1].
      assert (E' : i' + j' * rs = i + j * rs).
      { apply Nat.le_antisymm; [lia|]. rewrite <- El. exact Hge. }
      assert (j' = j).
      { rewrite (Nat.add_comm i'), (Nat.add_comm i) in E'. apply (f_equal (fun x => x / rs)) in E'. rewrite !Nat.div_add_l in E' by lia. rewrite !Nat.div_small in E' by assumption. lia. }
      subst j'. split; [reflexivity|lia].
  - rewrite flat_map_app. cbn [flat_map]. rewrite app_nil_r. eapply lm_perm; [|exact H3]. perm.
  - intros A. rewrite flat_map_app. cbn [flat_map]. rewrite app_nil_r, in_app_iff. intros [HA|HA]; [apply HN, HA|]. apply H4 in HA. lia.
  - eapply kb_trans; [exact HK|exact H5| |]; intros b [].
Qed.
Lemma wp_h2new (Q : list h2x -> mem K -> Prop) : lm D m0 X -> (forall l m', built (rs * cs) l m' -> Q l m') -> wp TT TT (forS 0 cs ob []) m0 Q.
Proof.
  intros HL HQ. apply (wp_forS (fun j l m => built (j * rs) l m)).
  - split; [reflexivity|]. split; [intros i j s _ _ Hs; destruct (i + j * rs); discriminate|]. split; [exact HL|]. split; [intros A []|apply kb_refl].
  - intros j l m1 [_ Hj] HI. cbn in Hj. rewrite Hob by exact Hj. apply (wp_forS (fun i l m => built (i + j * rs) l m)).
    + exact HI.
    + intros i l1 m2 [_ Hi] HI1. cbn in Hi. eapply built_step; [exact Hi|exact Hj|exact HI1|]. intros l' m3 H3. exact H3.
    + intros l1 m2 HI1. exact HI1.
  - intros l m1 HI. apply HQ. rewrite Nat.mul_comm. exact HI.
Qed.
End New.

(** ** [update_h2matrix] *)
Lemma nodes_here h : In h (h2nodes h). Proof. destruct h. left. reflexivity. Qed.
Lemma wp_update_super (rb cb : cbx) u f l rs cs ds m (Q : h2x -> mem K -> Prop) : length l = rs * cs -> (forall s, In s l -> h2desc_ok s) ->
  Q (H2 rb cb u f (Some l) rs cs (S (length (flat_map h2nodes l)))) m -> wp TT TT (update_h2matrix (H2 rb cb u f (Some l) rs cs ds)) m Q.
Proof.
  intros El Hd HQ. cbn [update_h2matrix]. apply wp_bind. apply (wp_sonloop (fun k d m1 => m1 = m /\ d = 1 + length (flat_map h2nodes (firstn k l)))).
  - split; reflexivity.
  - intros k d m1 Hk [-> ->]. destruct (nth_ex l k) as [s Es]; [lia|]. rewrite (sget_some _ _ _ Es). cbn [bind wp]. split; [reflexivity|].
    rewrite Nat.add_1_r, (firstn_S_nth l k s Es), flat_map_app, app_length. cbn [flat_map]. rewrite app_nil_r, (Hd s (nth_error_In _ _ Es) s (nodes_here s)). lia.
  - intros d m1 [-> ->]. rewrite <- El, firstn_all. exact HQ.
Qed.
Lemma desc_super (rb cb : cbx) u f l rs cs : (forall s, In s l -> h2desc_ok s) -> h2desc_ok (H2 rb cb u f (Some l) rs cs (S (length (flat_map h2nodes l)))).
Proof.
  intros Hd s Hs. cbn [h2nodes] in Hs. destruct Hs as [<-|Hs]; [reflexivity|]. apply in_flat_map in Hs as (t & Ht & Hs). exact (Hd t Ht s Hs).
Qed.
Lemma desc_leaf (rb cb : cbx) u f rs cs : h2desc_ok (H2 rb cb u f None rs cs 1).
Proof. intros s [<-|[]]. reflexivity. Qed.

(** ** Deletion *)
Lemma wp_del D h : forall m Ls, h2shape h -> lm D m (h2mats h ++ Ls) ->
  wp TT TT (del_h2matrix h) m (fun _ m' => lm D m' Ls /\ kb (map mblk (h2mats h)) m m').
Proof.
  induction h as [h IH] using h2_rect'. intros m Ls Hsh HL. destruct Hsh as [rb cb u f rs cs ds|rb cb l rs cs ds El Hs].
  - cbn [del_h2matrix bind]. rewrite h2mats_eq, app_nil_r in *. apply wp_bind.
    assert (Hu : forall o m Ls, lm D m (oml o ++ Ls) -> wp TT TT (match o with Some F => uninit_amatrix F | None => Ret tt end) m (fun _ m' => lm D m' Ls /\ kb (map mblk (oml o)) m m')).
    { intros [A|] m1 L1 H1; [|split; [exact H1|apply kb_refl]]. eapply wp_uninit_kb; [exact H1|]. intros m2 H3 H4. split; assumption. }
    eapply wp_conseq; [apply (Hu f m (oml u ++ Ls)); eapply lm_perm; [|exact HL]; perm|]. cbv beta. intros [] m1 (H1 & H3).
    eapply wp_conseq; [apply (Hu u m1 Ls H1)|]. cbv beta. intros [] m2 (H4 & H5). split; [exact H4|]. eapply kb_trans; [exact H3|exact H5| |]; intros b Hb; rewrite map_app, in_app_iff; auto.
  - cbn [del_h2matrix]. cbn [h2mats app] in *. apply wp_bind.
    apply (wp_sonloop (fun k _ m1 => lm D m1 (flat_map h2mats (skipn k l) ++ Ls) /\ kb (map mblk (flat_map h2mats l)) m m1)).
    + split; [exact HL|apply kb_refl].
    + intros k _ m1 Hk (H1 & H3). destruct (nth_ex l k) as [s Es]; [lia|]. rewrite (sget_some _ _ (del_h2matrix s)) by (rewrite nth_error_map, Es; reflexivity). cbn [bind].
      assert (Esk : skipn k l = s :: skipn (k + 1) l).
      { clear -Es. revert k Es. induction l as [|a l IH]; intros [|k] Es; cbn in Es; try discriminate; [injection Es as ->; reflexivity|]. cbn. apply IH, Es. }
      rewrite Esk in H1. cbn [flat_map] in H1. rewrite <- app_assoc in H1.
      eapply wp_conseq; [apply (IH l s eq_refl (nth_error_In _ _ Es) m1 _ (Hs s (nth_error_In _ _ Es)) H1)|]. cbv beta. intros [] m2 (H4 & H5). split; [exact H4|].
      eapply kb_trans; [exact H3|exact H5|auto|]. intros b Hb. left. apply in_map_iff in Hb as (A & EA & HA). apply in_map_iff. exists A. split; [exact EA|].
      eapply flat_incl; [eapply nth_error_In; exact Es|exact HA].
    + intros [] m1 (H1 & H3). rewrite <- El, skipn_all in H1. cbn [bind wp]. split; assumption.
Qed.

(** ** Sizes *)
Lemma wp_h2sizeloop (own : h2x -> nat) h : forall m (Q : nat -> mem K -> Prop), h2shape h -> (h2_son h = None -> h2_rsons h = 0 \/ h2_csons h = 0) ->
  (forall s, In s (h2nodes h) -> h2_son s = None -> h2_rsons s = 0 \/ h2_csons s = 0) ->
  Q (list_sum (map own (h2nodes h))) m -> wp TT TT (h2sizeloop own h) m Q.
Proof.
  induction h as [h IH] using h2_rect'. intros m Q Hsh _ H0 HQ. destruct Hsh as [rb cb u f rs cs ds|rb cb l rs cs ds El Hs].
  - cbn [h2sizeloop]. cbn in HQ. rewrite Nat.add_0_r in HQ. pose proof (H0 _ (nodes_here _) eq_refl) as E. cbn in E.
    apply (wp_sonloop (fun _ z m1 => z = own (H2 rb cb u f None rs cs ds) /\ m1 = m)); [auto| |intros z m1 [-> ->]; exact HQ].
    intros k z m1 Hk. exfalso. destruct E; subst; lia.
  - cbn [h2sizeloop]. cbn [h2nodes map list_sum fold_right] in HQ. set (h0 := H2 rb cb None None (Some l) rs cs ds) in *.
    apply (wp_sonloop (fun k z m1 => m1 = m /\ z = own h0 + list_sum (map own (flat_map h2nodes (firstn k l))))).
    + split; [reflexivity|]. cbn. lia.
    + intros k z m1 Hk [-> ->]. destruct (nth_ex l k) as [s Es]; [lia|]. pose proof (nth_error_In _ _ Es) as Ins.
      assert (H0' : forall t, In t (h2nodes s) -> h2_son t = None -> h2_rsons t = 0 \/ h2_csons t = 0).
      { intros t Ht. apply H0. unfold h0. cbn [h2nodes]. right. apply in_flat_map. exists s. auto. }
      rewrite (sget_some _ _ (h2sizeloop own s)) by (rewrite nth_error_map, Es; reflexivity). cbn [bind].
      apply wp_bind. apply (IH l s eq_refl Ins); [apply Hs, Ins|apply H0', nodes_here|exact H0'|]. cbn [wp]. split; [reflexivity|].
      rewrite Nat.add_1_r, (firstn_S_nth l k s Es), flat_map_app, map_app, list_sum_app. cbn [flat_map]. rewrite app_nil_r. lia.
    + intros z m1 [-> ->]. rewrite <- El, firstn_all. exact HQ.
Qed.
Lemma fit_leaf0 h s : h2fit h -> In s (h2nodes h) -> h2_son s = None -> h2_rsons s = 0 \/ h2_csons s = 0.
Proof.
  revert s. induction h as [h IH] using h2_rect'. intros s Hf Hs Hn. inversion Hf as [| | |rb cb l R C ds S1 S2 El Hsn]; subst; cbn in Hs.
  1-3: destruct Hs as [<-|[]]; left; reflexivity.
  destruct Hs as [<-|Hs]; [discriminate|]. apply in_flat_map in Hs as (t & Ht & Hs). apply (IH l t eq_refl Ht s); auto.
  apply In_nth_error in Ht as [k Hk]. destruct (flat_index k (length R) (length C)) as (i & j & Hi & Hj & ->); [rewrite <- El; eapply nth_lt; exact Hk|]. apply (Hsn i j t Hi Hj Hk).
Qed.
End P.
