(** * Proofs about H-matrices: traversals of the leaves *)
From Coq Require Import Arith Lia List Bool Ring Permutation.
From Verif Require Import Fld Ord Prog Arr View Spec Loop Cluster Block BlockP Avector AvectorP Amatrix AmatrixP AmatrixP2
  Rkmatrix RkSpec RkP Hmatrix HmSpec HmP.
Import ListNotations.

Section HmP4.
Context {K : fops} {G : ofops}.
Implicit Types (m : mem K) (R W : addr -> Prop) (h : hmatrix G) (D : nat -> nat -> K).
Local Notation hmx := (hmatrix G).

Lemma NoDup_app_intro {A} (l l' : list A) : NoDup l -> NoDup l' -> (forall b, In b l -> In b l' -> False) -> NoDup (l ++ l').
Proof.
  induction l as [|a l IH]; intros H H' Hd; [exact H'|]. inversion H; subst. cbn. constructor.
  - rewrite in_app_iff. intros [Hi|Hi]; [auto|]. apply (Hd a); [left; reflexivity|exact Hi].
  - apply IH; [assumption|assumption|]. intros b Hb. apply Hd. right. exact Hb.
Qed.
Lemma NoDup_app_r {A} (l l' : list A) : NoDup (l ++ l') -> NoDup l'.
Proof. induction l as [|a l IH]; intros H; [exact H|]. inversion H; subst. auto. Qed.
Lemma NoDup_app_l {A} (l l' : list A) : NoDup (l ++ l') -> NoDup l.
Proof.
  induction l as [|a l IH]; intros H; [constructor|]. inversion H; subst. constructor; [|auto]. rewrite in_app_iff in *. tauto.
Qed.
Lemma NoDup_app_disj {A} (l l' : list A) b : NoDup (l ++ l') -> In b l -> In b l' -> False.
Proof.
  induction l as [|a l IH]; intros H Hb Hb'; [destruct Hb|]. inversion H; subst. destruct Hb as [->|Hb]; [|auto].
  rewrite in_app_iff in *. tauto.
Qed.
Lemma firstn_S_nth {A} (l : list A) k x : nth_error l k = Some x -> firstn (S k) l = firstn k l ++ [x].
Proof.
  revert k. induction l as [|a l IH]; intros [|k] H; try discriminate; cbn in H.
  - injection H as ->. reflexivity.
  - change (firstn (S (S k)) (a :: l)) with (a :: firstn (S k) l). rewrite (IH k H). reflexivity.
Qed.
Lemma nth_lt {A} (l : list A) k x : nth_error l k = Some x -> k < length l.
Proof. intros H. apply nth_error_Some. congruence. Qed.

Lemma wp_sonloop {S} (Inv : nat -> S -> mem K -> Prop) R W rs cs (body : nat -> S -> prog K S) (s : S) m (Q : S -> mem K -> Prop) :
  Inv 0 s m ->
  (forall k (s : S) m, k < rs * cs -> Inv k s m -> wp R W (body k s) m (fun s' m' => Inv (k + 1) s' m')) ->
  (forall (s : S) m, Inv (rs * cs) s m -> Q s m) ->
  wp R W (sonloop rs cs body s) m Q.
Proof.
  intros H0 Hs HQ. unfold sonloop.
  apply (wp_forS (fun j s m => Inv (j * rs) s m)).
  - exact H0.
  - intros j s1 m1 [_ Hj] H1. cbn in Hj. apply (wp_forS (fun i s m => Inv (i + j * rs) s m)).
    + exact H1.
    + intros i s2 m2 [_ Hi] H2. cbn in Hi. eapply wp_conseq; [apply Hs; [apply pos_lt; assumption|exact H2]|].
      cbv beta. intros s3 m3 H3. replace (Datatypes.S i + j * rs) with (i + j * rs + 1) by lia. exact H3.
    + intros s2 m2 H2. exact H2.
  - intros s1 m1 H1. apply HQ. cbn in H1. rewrite Nat.mul_comm. exact H1.
Qed.

(** ** Sons that are computed one after the other *)
Lemma wp_sons rs cs (body : nat -> list hmx -> prog K (list hmx)) (q : nat -> prog K hmx) (B : nat -> nat -> Prop)
  (P : nat -> hmx -> mem K -> Prop) m (Q : list hmx -> mem K -> Prop) :
  (forall k l, k < rs * cs -> body k l = bind (q k) (fun s => Ret (l ++ [s]))) ->
  (forall i k b, i < rs * cs -> k < rs * cs -> i <> k -> B i b -> B k b -> False) ->
  (forall k b, k < rs * cs -> B k b -> b < next m) ->
  (forall k s W m m', P k s m -> keeps W m m' -> (forall a, In (fst a) (hblocks s) -> ~ W a) -> P k s m') ->
  (forall k m1, k < rs * cs -> keeps (fun a => (exists i, i < k /\ B i (fst a)) \/ next m <= fst a) m m1 ->
     wp TT TT (q k) m1 (fun s m2 => P k s m2 /\ NoDup (hblocks s) /\
       (forall b, In b (hblocks s) -> b < next m2 /\ (B k b \/ next m1 <= b)) /\
       keeps (fun a => B k (fst a) \/ next m1 <= fst a) m1 m2)) ->
  (forall l m', length l = rs * cs -> (forall k s, nth_error l k = Some s -> P k s m') -> NoDup (flat_map hblocks l) ->
     (forall b, In b (flat_map hblocks l) -> b < next m' /\ ((exists k, k < rs * cs /\ B k b) \/ next m <= b)) ->
     keeps (fun a => (exists k, k < rs * cs /\ B k (fst a)) \/ next m <= fst a) m m' -> Q l m') ->
  wp TT TT (sonloop rs cs body []) m Q.
Proof.
  intros Hb Bd Bm Pst Hq HQ.
  apply (wp_sonloop (fun k l m' => k <= rs * cs /\ length l = k /\ (forall i s, nth_error l i = Some s -> P i s m') /\ NoDup (flat_map hblocks l) /\
     (forall b, In b (flat_map hblocks l) -> b < next m' /\ ((exists i, i < k /\ B i b) \/ next m <= b)) /\
     keeps (fun a => (exists i, i < k /\ B i (fst a)) \/ next m <= fst a) m m')).
  - split; [lia|]. split; [reflexivity|]. split; [intros [|i] s; discriminate|]. split; [constructor|]. split; [intros b []|apply keeps_refl].
  - intros k l m1 Hk (_ & Hl & HP & Hn & Hbl & Hkp). rewrite Hb by exact Hk. apply wp_bind.
    eapply wp_conseq; [apply Hq; [exact Hk|exact Hkp]|]. cbv beta. intros s m2 (Ps & Ns & Bs & Ks). cbn [wp].
    pose proof (proj1 Ks) as N12. pose proof (proj1 Hkp) as N01.
    assert (Hsep : forall b, In b (flat_map hblocks l) -> ~ (B k b \/ next m1 <= b)).
    { intros b Hin Hc. destruct (Hbl b Hin) as [Hlt [(i & Hi & HB)|Hge]].
      - destruct Hc as [Hc|Hc]; [|lia]. apply (Bd i k b); auto; lia.
      - destruct Hc as [Hc|Hc]; [|lia]. apply Bm in Hc; lia. }
    split; [lia|]. split; [rewrite app_length; cbn; lia|]. split; [|split; [|split]].
    + intros i s' Hi. destruct (Nat.lt_ge_cases i (length l)) as [Hil|Hil].
      * rewrite nth_error_app1 in Hi by exact Hil. eapply Pst; [apply HP; exact Hi|exact Ks|].
        intros a Ha. apply Hsep. apply in_flat_map. exists s'. split; [eapply nth_error_In; exact Hi|exact Ha].
      * rewrite nth_error_app2 in Hi by exact Hil. destruct (i - length l) as [|d] eqn:E; [|destruct d; discriminate].
        injection Hi as <-. replace i with k by lia. exact Ps.
    + rewrite flat_map_app. cbn [flat_map]. rewrite app_nil_r. apply NoDup_app_intro; [exact Hn|exact Ns|].
      intros b Hb1 Hb2. apply (Hsep b Hb1). apply Bs. exact Hb2.
    + intros b Hin. rewrite flat_map_app, in_app_iff in Hin. cbn [flat_map] in Hin. rewrite app_nil_r in Hin. destruct Hin as [Hin|Hin].
      * destruct (Hbl b Hin) as [H1 [(i & Hi & HB)|H2]]; (split; [lia|]); [left; exists i; split; [lia|exact HB]|right; exact H2].
      * destruct (Bs b Hin) as [H1 [H2|H2]]; (split; [exact H1|]); [left; exists k; split; [lia|exact H2]|right; lia].
    + eapply keeps_trans; (eapply keeps_mono; [|eassumption]); cbv beta.
      * intros a [(i & Hi & HB)|Ha]; [left; exists i; split; [lia|exact HB]|right; exact Ha].
      * intros a [HB|Ha]; [left; exists k; split; [lia|exact HB]|right; lia].
  - intros l m1 (_ & Hl & HP & Hn & Hbl & Hkp). apply HQ; assumption.
Qed.

(** ** All leaves *)
Inductive hshape : hmx -> Prop :=
| hshape_leaf h : hm_son h = None -> hshape h
| hshape_super rc cc l rs cs ds : length l = rs * cs -> (forall s, In s l -> hshape s) -> hshape (HM rc cc None None (Some l) rs cs ds).

Inductive hall (P : hmx -> hmx -> Prop) : hmx -> hmx -> Prop :=
| hall_leaf h h' : hm_son h = None -> P h h' -> hall P h h'
| hall_super rc cc l l' rs cs ds ds' : length l = rs * cs -> length l' = rs * cs ->
    (forall k s s', nth_error l k = Some s -> nth_error l' k = Some s' -> hall P s s') ->
    hall P (HM rc cc None None (Some l) rs cs ds) (HM rc cc None None (Some l') rs cs ds').

Lemma hall_mono (P P' : hmx -> hmx -> Prop) h : forall h',
  (forall s s', In s (hleaves h) -> (forall b, In b (hblocks s') -> In b (hblocks h')) -> P s s' -> P' s s') -> hall P h h' -> hall P' h h'.
Proof.
  induction h as [h IH] using hm_rect'. intros h' H Ha. destruct Ha as [h h' Hs Hp|rc cc l l' rs cs ds ds' Hl Hl' Hp].
  - apply hall_leaf; [exact Hs|]. apply H; [|auto|exact Hp]. destruct h as [? ? ? ? [?|] ? ? ?]; [discriminate|]. left. reflexivity.
  - apply hall_super; [exact Hl|exact Hl'|]. intros k s s' Hk Hk'. eapply (IH l); [reflexivity|eapply nth_error_In; exact Hk| |eapply Hp; eassumption].
    intros t t' Ht Ht' HP. apply H; [| |exact HP].
    + cbn. apply in_flat_map. exists s. split; [eapply nth_error_In; exact Hk|exact Ht].
    + intros b Hb. cbn. apply in_flat_map. exists s'. split; [eapply nth_error_In; exact Hk'|]. apply Ht', Hb.
Qed.

(** The blocks a traversal may change: those of the H-matrix, or none. *)
Definition foot (own : bool) h (b : nat) : Prop := own = true /\ In b (hblocks h).

Section Leaf.
Variables (leaf : hmx -> prog K hmx) (own upd : bool) (LP : mem K -> hmx -> Prop) (P : mem K -> hmx -> hmx -> Prop).
Hypothesis LPst : forall m m' W s, LP m s -> keeps W m m' -> (forall a, In (fst a) (hblocks s) -> ~ W a) -> LP m' s.
Hypothesis Pst : forall m m' W s s', P m s s' -> keeps W m m' -> (forall a, In (fst a) (hblocks s') -> ~ W a) -> P m' s s'.
Hypothesis leafok : forall m s, hm_son s = None -> LP m s -> (forall b, In b (hblocks s) -> b < next m) -> (own = true -> NoDup (hblocks s)) ->
  wp TT TT (leaf s) m (fun s' m' => P m' s s' /\ NoDup (hblocks s') /\
    (forall b, In b (hblocks s') -> b < next m' /\ (foot own s b \/ next m <= b)) /\
    keeps (fun a => foot own s (fst a) \/ next m <= fst a) m m').
(** Results of [leaf] are leaves; if [upd], they can be updated. *)
Hypothesis Pleaf : forall m s s', P m s s' -> hm_son s' = None.
Hypothesis Pupd : upd = true -> forall m rc cc r f rs cs ds s, P m s (HM rc cc r f None rs cs ds) -> P m s (HM rc cc r f None rs cs 1).

Definition tr_prog : hmx -> prog K hmx := if upd then each_leaf_upd leaf else each_leaf leaf.

Lemma foot_super rc cc l rs cs ds b : foot own (HM rc cc None None (Some l) rs cs ds) b <-> exists k s, nth_error l k = Some s /\ foot own s b.
Proof.
  unfold foot. cbn [hblocks app]. rewrite in_flat_map. split.
  - intros (Ho & s & Hs & Hb). apply In_nth_error in Hs. destruct Hs as [k Hk]. exists k, s. auto.
  - intros (k & s & Hk & Ho & Hb). split; [exact Ho|]. exists s. split; [eapply nth_error_In; exact Hk|exact Hb].
Qed.

Lemma nodup_flat {A B} (f : A -> list B) l i k s t b : NoDup (flat_map f l) -> nth_error l i = Some s -> nth_error l k = Some t -> i <> k ->
  In b (f s) -> In b (f t) -> False.
Proof.
  revert i k. induction l as [|a l IH]; intros i k Hn Hi Hk Hne Hs Ht; [destruct i; discriminate|]. cbn in Hn.
  destruct i as [|i], k as [|k]; cbn in Hi, Hk; try lia.
  - injection Hi as ->. eapply (NoDup_app_disj _ _ _ Hn Hs). apply in_flat_map. exists t. split; [eapply nth_error_In; exact Hk|exact Ht].
  - injection Hk as ->. eapply (NoDup_app_disj _ _ _ Hn Ht). apply in_flat_map. exists s. split; [eapply nth_error_In; exact Hi|exact Hs].
  - apply NoDup_app_r in Hn. eapply IH; eauto.
Qed.
Lemma nodup_part {A B} (f : A -> list B) l s : NoDup (flat_map f l) -> In s l -> NoDup (f s).
Proof.
  induction l as [|a l IH]; intros Hn []; cbn in Hn.
  - subst. eapply NoDup_app_l. exact Hn.
  - apply IH; [eapply NoDup_app_r; exact Hn|assumption].
Qed.

Lemma wp_tr h : forall m, hshape h -> (forall s, In s (hleaves h) -> LP m s) -> (forall b, In b (hblocks h) -> b < next m) ->
  (own = true -> NoDup (hblocks h)) ->
  wp TT TT (tr_prog h) m (fun h' m' => hall (P m') h h' /\ NoDup (hblocks h') /\ (upd = true -> hdesc_ok h') /\
    (forall b, In b (hblocks h') -> b < next m' /\ (foot own h b \/ next m <= b)) /\
    keeps (fun a => foot own h (fst a) \/ next m <= fst a) m m').
Proof.
  induction h as [h IH] using hm_rect'. intros m Hsh HL Hbm Hnd.
  destruct h as [rc cc r f [l|] rs cs ds].
  - assert (E : r = None /\ f = None /\ length l = rs * cs /\ forall s, In s l -> hshape s) by (inversion Hsh; [discriminate|subst; auto]).
    destruct E as (-> & -> & Hl & Hsub). clear Hsh.
    assert (Hmain : forall Q : list hmx -> mem K -> Prop,
      (forall l' m', length l' = rs * cs -> (forall k s s', nth_error l k = Some s -> nth_error l' k = Some s' -> hall (P m') s s' /\ (upd = true -> hdesc_ok s')) ->
        NoDup (flat_map hblocks l') ->
        (forall b, In b (flat_map hblocks l') -> b < next m' /\ (foot own (HM rc cc None None (Some l) rs cs ds) b \/ next m <= b)) ->
        keeps (fun a => foot own (HM rc cc None None (Some l) rs cs ds) (fst a) \/ next m <= fst a) m m' -> Q l' m') ->
      wp TT TT (sonloop rs cs (fun k (l' : list hmx) => p <- sget (Some (map tr_prog l)) k ;; s <- p ;; Ret (l' ++ [s])) []) m Q).
    { intros Q HQ.
      set (B := fun k b => exists s, nth_error l k = Some s /\ foot own s b).
      eapply (wp_sons rs cs _ (fun k => match nth_error l k with Some s => tr_prog s | None => Fail EBounds end) B
        (fun k s' m' => forall s, nth_error l k = Some s -> hall (P m') s s' /\ (upd = true -> hdesc_ok s'))).
      - intros k l' Hk. unfold sget. rewrite nth_error_map. destruct (nth_error l k) eqn:E; [reflexivity|]. apply nth_error_None in E. lia.
      - intros i k b Hi Hk Hne (s & Hs & Ho & Hb) (t & Ht & _ & Hb'). exact (nodup_flat hblocks l i k s t b (Hnd Ho) Hs Ht Hne Hb Hb').
      - intros k b Hk (s & Hs & Ho & Hb). apply Hbm. cbn. apply in_flat_map. exists s. split; [eapply nth_error_In; exact Hs|exact Hb].
      - intros k s' W m0 m' H Hkp Hd s Hs. specialize (H s Hs). destruct H as [H Hdd]. split; [|exact Hdd]. eapply hall_mono; [|exact H].
        intros t t' _ Hin HP. eapply Pst; [exact HP|exact Hkp|]. intros a Ha. apply Hd. apply Hin, Ha.
      - intros k m1 Hk Hkp. destruct (nth_error l k) as [s|] eqn:Es; [|apply nth_error_None in Es; lia].
        pose proof (nth_error_In _ _ Es) as Hin. pose proof (proj1 Hkp) as N01.
        assert (Hsb : forall b, In b (hblocks s) -> b < next m /\ ~ exists i, i < k /\ B i b).
        { intros b Hb. split; [apply Hbm; cbn; apply in_flat_map; exists s; split; assumption|].
          intros (i & Hi & t & Ht & Ho & Hb'). refine (nodup_flat hblocks l i k t s b (Hnd Ho) Ht Es _ Hb' Hb). lia. }
        eapply wp_conseq; [apply (IH l s eq_refl Hin m1)|].
        + apply Hsub, Hin.
        + intros t Ht. assert (Htl : LP m t) by (apply HL; cbn; apply in_flat_map; exists s; split; assumption).
          eapply LPst; [exact Htl|exact Hkp|]. intros a Ha.
          assert (Hab : In (fst a) (hblocks s)).
          { clear -Ht Ha. revert Ht Ha. generalize t. clear t. induction s as [s IHs] using hm_rect'. intros t Ht Ha.
            destruct s as [rc cc r f [l|] rs cs ds]; cbn in Ht.
            - apply in_flat_map in Ht. destruct Ht as (u & Hu & Ht). cbn. rewrite !in_app_iff, in_flat_map. right; right. exists u.
              split; [exact Hu|]. eapply IHs; eauto. reflexivity.
            - destruct Ht as [<-|[]]. exact Ha. }
          destruct (Hsb _ Hab) as [H1 H2]. intros [H3|H3]; [exact (H2 H3)|lia].
        + intros b Hb. apply Hsb in Hb. lia.
        + intros Ho. eapply nodup_part; [apply (Hnd Ho)|exact Hin].
        + cbv beta. intros s' m2 (H1 & H2 & Hdd & H3 & H4). split; [intros t Et; injection Et as <-; split; assumption|]. split; [exact H2|]. split.
          * intros b Hb. destruct (H3 b Hb) as [H5 [H6|H6]]; (split; [exact H5|]); [left; exists s; split; assumption|right; exact H6].
          * eapply keeps_mono; [|exact H4]. cbv beta. intros a [Ha|Ha]; [left; exists s; split; assumption|right; exact Ha].
      - intros l' m' Hl' HP' Hn' Hb' Hk'. apply HQ; [exact Hl'| |exact Hn'| |].
        + intros k s s' Hs Hs'. exact (HP' k s' Hs' s Hs).
        + intros b Hb. destruct (Hb' b Hb) as [H1 [(k & Hk & s & Hs & Hf)|H2]]; (split; [exact H1|]); [left|right; exact H2].
          apply foot_super. exists k, s. split; assumption.
        + eapply keeps_mono; [|exact Hk']. cbv beta. intros a [(k & Hk & s & Hs & Hf)|Ha]; [left|right; exact Ha].
          apply foot_super. exists k, s. split; assumption. }
    unfold tr_prog in *. destruct upd eqn:Eu.
    + cbn [each_leaf_upd]. apply wp_bind. apply Hmain. intros l' m' H1 H2 H3 H4 H5.
      cbn [update_hmatrix new_super_hmatrix]. apply wp_bind.
      apply (wp_sonloop (fun k d m1 => m1 = m' /\ d = 1 + length (flat_map hnodes (firstn k l')))).
      * split; [reflexivity|]. reflexivity.
      * intros k d m1 Hk [-> ->]. destruct (nth_ex l' k) as [s' Hs']; [lia|]. rewrite (sget_some _ _ _ Hs'). cbn [bind wp]. split; [reflexivity|].
        destruct (nth_ex l k) as [s Hs]; [lia|]. destruct (H2 k s s' Hs Hs') as [_ Hd]. specialize (Hd eq_refl).
        rewrite Nat.add_1_r. rewrite (firstn_S_nth l' k s' Hs'), flat_map_app, app_length. cbn [flat_map]. rewrite app_nil_r.
        rewrite (Hd s') by (destruct s'; left; reflexivity). lia.
      * intros d m1 [-> ->]. cbn [wp]. rewrite <- H1, firstn_all. split; [|split; [|split; [|split]]].
        -- apply hall_super; [lia|lia|]. intros k s s' Hs Hs'. apply (H2 k s s' Hs Hs').
        -- exact H3.
        -- intros _ s Hs. cbn [hnodes] in Hs. destruct Hs as [<-|Hs]; [reflexivity|]. apply in_flat_map in Hs. destruct Hs as (s' & Hs' & Hin).
           apply In_nth_error in Hs'. destruct Hs' as [k Hk]. destruct (nth_ex l k) as [t Ht]; [apply nth_lt in Hk; lia|].
           destruct (H2 k t s' Ht Hk) as [_ Hd]. apply (Hd eq_refl). exact Hin.
        -- exact H4.
        -- exact H5.
    + cbn [each_leaf]. apply wp_bind. apply Hmain. intros l' m' H1 H2 H3 H4 H5. cbn [wp]. split; [|split; [|split; [|split]]].
      * apply hall_super; [lia|lia|]. intros k s s' Hs Hs'. apply (H2 k s s' Hs Hs').
      * exact H3.
      * discriminate.
      * exact H4.
      * exact H5.
  - assert (Hl : wp TT TT (leaf (HM rc cc r f None rs cs ds)) m (fun s' m' => P m' (HM rc cc r f None rs cs ds) s' /\ NoDup (hblocks s') /\
      (forall b, In b (hblocks s') -> b < next m' /\ (foot own (HM rc cc r f None rs cs ds) b \/ next m <= b)) /\
      keeps (fun a => foot own (HM rc cc r f None rs cs ds) (fst a) \/ next m <= fst a) m m')).
    { apply leafok; auto. apply HL. left. reflexivity. }
    unfold tr_prog. destruct upd eqn:Eu.
    + cbn [each_leaf_upd]. apply wp_bind. eapply wp_conseq; [exact Hl|]. cbv beta. intros s' m' (H1 & H2 & H3 & H4).
      destruct s' as [rc' cc' r' f' son' rs' cs' ds']. pose proof (Pleaf _ _ _ H1) as Es. cbn in Es. subst son'. cbn [update_hmatrix bind wp].
      split; [apply hall_leaf; [reflexivity|]; eapply (Pupd eq_refl); exact H1|]. split; [exact H2|]. split; [|split; assumption].
      intros _ s [<-|[]]. reflexivity.
    + cbn [each_leaf]. eapply wp_conseq; [exact Hl|]. cbv beta. intros s' m' (H1 & H2 & H3 & H4).
      split; [apply hall_leaf; [reflexivity|exact H1]|]. split; [exact H2|]. split; [discriminate|split; assumption].
Qed.
End Leaf.
End HmP4.
