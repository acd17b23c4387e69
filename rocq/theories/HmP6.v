(** * Proofs about H-matrices: copy, block trees and sizes *)
From Coq Require Import Arith Lia List Bool Ring Permutation.
From Verif Require Import Fld Ord Prog Arr View Spec Loop Cluster ClusterSpec ClusterP ClusterP5 Block BlockSpec BlockP BlockP2 BlockP3 Avector AvectorP Amatrix AmatrixP AmatrixP2
  Rkmatrix RkSpec RkP Hmatrix HmSpec HmP HmP4 HmP5.
Import ListNotations.

Section HmP6.
Context {K : fops} {G : ofops}.
Implicit Types (m : mem K) (h : hmatrix G) (D : nat -> nat -> K).
Local Notation hmx := (hmatrix G).

(** ** copy *)
Lemma wp_copy_h m src : forall trg D m0 (Q : hmx -> mem K -> Prop),
  hrep m src D -> (forall b, In b (hblocks src) -> b < next m) -> hown m trg -> hsim src trg ->
  (forall b, In b (hblocks src) -> ~ In b (hblocks trg)) ->
  m0 = m ->
  (forall trg' m', hsim src trg' -> hown m' trg' -> hrep m' trg' D -> hranks trg' = hranks src ->
     (forall b, In b (hblocks trg') -> In b (hblocks trg) \/ next m <= b) ->
     keeps (fun a => blk_of trg a \/ next m <= fst a) m m' -> Q trg' m') ->
  wp TT TT (copy_hmatrix src trg) m0 Q.
Proof.
  revert m. induction src as [src IH] using hm_rect'. intros m trg D m0 Q HD Hb [Hst Hnd] Hsim Hdis -> HQ.
  destruct Hsim as [rc cc r r' ds ds'|rc cc f f' ds ds'|rc cc l l2 rs cs ds ds' HF].
  - cbn [copy_hmatrix hm_rsons hm_csons hm_rc hm_cc]. rewrite !Nat.eqb_refl, !cp_eqb_refl. cbn [passert bind hm_r].
    inversion Hst as [? ? ? ? E1 E2 Hr'| |]; subst. inversion HD as [? ? ? ? ? F1 F2 Hr| |]; subst.
    apply wp_bind. apply wp_resize_rk; [exact Hr'|]. intros r2 m1 O R1 R2 R3 [N1 N2] Hk.
    assert (Hd1 : forall a, rkblk r a -> ~ (rkblk r' a \/ next m <= fst a)).
    { intros a Ha [Ha'|Ha'].
      - apply (Hdis (fst a)); cbn; [destruct Ha as [->| ->]; auto|destruct Ha' as [->| ->]; auto].
      - enough (fst a < next m) by lia. apply Hb. cbn. destruct Ha as [->| ->]; auto. }
    eapply (wp_copy_factors m1 r r2 D); [eapply rkrep_dis; [exact Hr|exact Hk|exact Hd1]|exact O| |lia|lia|lia|].
    + intros a Ha Ha'. apply (Hd1 a Ha). unfold rkblk in *. destruct Ha' as [Ha'|Ha']; rewrite Ha'; intuition lia.
    + intros m2 H2 O2 K2. cbn [wp set_r]. apply HQ.
      * constructor.
      * split; [constructor; auto; lia|]. apply NoDup_two, O2.
      * constructor; auto; lia.
      * cbn. rewrite R3. reflexivity.
      * cbn. intros b [<-|[<-|[]]]; intuition lia.
      * eapply keeps_trans; (eapply keeps_mono; [|eassumption]); cbv beta; unfold rkblk, blk_of; cbn; intros a Ha; intuition lia.
  - cbn [copy_hmatrix hm_rsons hm_csons hm_rc hm_cc]. rewrite !Nat.eqb_refl, !cp_eqb_refl. cbn [passert bind hm_f].
    inversion Hst as [|? ? ? ? E1 E2 E3 E4 E5 E6|]; subst. inversion HD as [|? ? ? ? ? F1 F2 Hf|]; subst.
    assert (Hne : mblk f <> mblk f') by (intros E; apply (Hdis (mblk f)); cbn; auto).
    apply wp_bind. eapply (wp_copy_amatrix TT TT false f f' D); [exact E5|exact Hf|exact E6| |apply rdokT|apply wrokT|cbn; lia|cbn; lia|].
    + intros a Ha Ha'. apply inm_blk in Ha. apply inm_blk in Ha'. congruence.
    + intros m2 H2 K2. cbn [wp tr] in *. pose proof (proj1 K2). apply HQ.
      * constructor.
      * split; [|apply NoDup_one]. constructor; auto; [lia|]. intros i j Hi Hj. rewrite (H2 i j Hi Hj). discriminate.
      * constructor; auto.
      * reflexivity.
      * cbn. auto.
      * eapply keeps_mono; [|exact K2]. cbv beta. intros a Ha. apply inm_blk in Ha. left. left. symmetry. exact Ha.
  - cbn [copy_hmatrix hm_rsons hm_csons hm_rc hm_cc hm_son]. rewrite !Nat.eqb_refl, !cp_eqb_refl. cbn [passert bind].
    inversion Hst as [| |? ? ? ? ? ? hs2 ws2 P1 P2 P3 P4 P5 P6 P7]; subst. inversion HD as [| |? ? ? ? ? ? hs ws ? Q1 Q2 Q3 Q4 Q5 Q6 Q7]; subst.
    cbn in Hnd.
    apply wp_bind.
    eapply (wp_sons rs cs _ (fun k => match nth_error l k, nth_error l2 k with Some s, Some t => copy_hmatrix s t | _, _ => Fail EBounds end)
      (fun k b => exists t, nth_error l2 k = Some t /\ In b (hblocks t))
      (fun k s' m' => forall s, nth_error l k = Some s -> hsim s s' /\ hstr m' s' /\ hranks s' = hranks s /\
         hrep m' s' (fun p q => D (nsum (k mod rs) hs + p) (nsum (k / rs) ws + q)))).
    + intros k l' Hk. destruct (nth_ex l k) as [s Es]; [lia|]. destruct (nth_ex l2 k) as [t Et]; [lia|].
      unfold sget. rewrite nth_error_map, Es, Et. reflexivity.
    + intros i k b Hi Hk Hne (s & Hs & Hbs) (t & Ht & Hbt). exact (nodup_flat hblocks l2 i k s t b Hnd Hs Ht Hne Hbs Hbt).
    + intros k b Hk (t & Ht & Hbt). eapply hstr_bound; [exact Hst|]. cbn. apply in_flat_map. exists t. split; [eapply nth_error_In; exact Ht|exact Hbt].
    + intros k s' W m1 m' H Hk Hd s Hs. destruct (H s Hs) as (H1 & H2 & H3 & H4). split; [exact H1|]. split; [eapply hstr_blk; eauto|]. split; [exact H3|]. eapply hrep_blk; eauto.
    + intros k m1 Hk Hkp. destruct (nth_ex l k) as [s Es]; [lia|]. destruct (nth_ex l2 k) as [t Et]; [lia|]. rewrite Es, Et.
      pose proof (nth_error_In _ _ Es) as Ins. pose proof (nth_error_In _ _ Et) as Int. pose proof (proj1 Hkp) as N1.
      assert (Ek : k = k mod rs + k / rs * rs) by (rewrite (Nat.div_mod k rs) at 1 by lia; lia).
      assert (Hi : k mod rs < rs) by (apply Nat.mod_upper_bound; lia).
      assert (Hj : k / rs < cs) by (apply Nat.div_lt_upper_bound; lia).
      assert (Hs : hrep m s (fun p q => D (nsum (k mod rs) hs + p) (nsum (k / rs) ws + q))) by (apply Q7; [exact Hi|exact Hj|rewrite <- Ek; exact Es]).
      assert (Hsb : forall b, In b (hblocks s) -> b < next m).
      { intros b Hbs. apply Hb. cbn. apply in_flat_map. exists s. split; assumption. }
      assert (Htb : forall b, In b (hblocks t) -> b < next m) by (intros b; apply hstr_bound; auto).
      eapply (IH l s eq_refl Ins m1 t); [| | | | |reflexivity|].
      * eapply hrep_blk; [exact Hs|exact Hkp|]. intros a Ha [(i & _ & t' & Ht' & Hbt')|Hge].
        -- apply (Hdis (fst a)); cbn; apply in_flat_map; [exists s|exists t']; split; auto. eapply nth_error_In. exact Ht'.
        -- apply Hsb in Ha. lia.
      * intros b Hbs. apply Hsb in Hbs. lia.
      * split; [|eapply nodup_part; eauto]. eapply hstr_blk; [apply P7; exact Int|exact Hkp|]. intros a Ha [(i & Hik & t' & Ht' & Hbt')|Hge].
        -- refine (nodup_flat hblocks l2 i k t' t (fst a) Hnd Ht' Et _ Hbt' Ha). lia.
        -- apply Htb in Ha. lia.
      * eapply HmP5.Forall2_nth; eauto.
      * intros b Hbs Hbt. apply (Hdis b); cbn; apply in_flat_map; [exists s|exists t]; split; auto.
      * intros t' m' S1 [S2 S2'] S3 S4 S5 S6. split; [|split; [exact S2'|split]].
        -- intros s1 Es1. injection Es1 as <-. auto.
        -- intros b Hb'. split; [eapply hstr_bound; eauto|]. destruct (S5 b Hb') as [Hx|Hx]; [left; exists t; auto|right; exact Hx].
        -- eapply keeps_mono; [|exact S6]. cbv beta. intros a [Hx|Hx]; [left; exists t; auto|right; exact Hx].
    + intros l' m' Hl' HP Hn Hbl Hk. cbn [wp].
      assert (HP' : forall k s s', nth_error l k = Some s -> nth_error l' k = Some s' -> hsim s s' /\ hstr m' s' /\ hranks s' = hranks s /\
         hrep m' s' (fun p q => D (nsum (k mod rs) hs + p) (nsum (k / rs) ws + q))) by (intros k s s' Hs Hs'; exact (HP k s' Hs' s Hs)).
      assert (Hsz : forall i j s', i < rs -> j < cs -> nth_error l' (i + j * rs) = Some s' -> hrows s' = hs i /\ hcols s' = ws j).
      { intros i j s' Hi Hj Hs'. destruct (nth_ex l (i + j * rs)) as [s Hs]; [rewrite Q3; apply pos_lt; assumption|].
        destruct (HP' _ _ _ Hs Hs') as (H1 & _). apply hsim_rc in H1. destruct H1 as [-> ->]. eauto. }
      apply HQ.
      * constructor. apply Forall2_nth_error; [lia|]. intros k x y Hx Hy. apply (HP' k x y Hx Hy).
      * split; [|exact Hn]. apply (hstr_super _ _ _ _ _ _ _ hs ws); auto. intros s' Hs'. apply In_nth_error in Hs'. destruct Hs' as [k Hk'].
        destruct (nth_ex l k) as [s Hs]; [apply nth_lt in Hk'; lia|]. apply (HP' k s s' Hs Hk').
      * apply (hrep_super _ _ _ _ _ _ _ hs ws); auto. intros i j s' Hi Hj Hs'. destruct (nth_ex l (i + j * rs)) as [s Hs]; [rewrite Q3; apply pos_lt; assumption|].
        destruct (HP' _ _ _ Hs Hs') as (_ & _ & _ & H1). rewrite Nat.mod_add, Nat.div_add, Nat.mod_small, Nat.div_small in H1 by lia. exact H1.
      * cbn [hranks app]. assert (HFr : Forall2 (fun s s' => hranks s' = hranks s) l l').
        { apply Forall2_nth_error; [lia|]. intros k x y Hx Hy. apply (HP' k x y Hx Hy). }
        clear -HFr. induction HFr; [reflexivity|]. cbn. congruence.
      * cbn. intros b Hb'. destruct (Hbl b Hb') as [_ [(k & _ & t & Ht & Hx)|Hx]]; [left|right; exact Hx]. apply in_flat_map. exists t. split; [eapply nth_error_In; exact Ht|exact Hx].
      * eapply keeps_mono; [|exact Hk]. cbv beta. unfold blk_of. cbn. intros a [(k & _ & t & Ht & Hx)|Hx]; [left|right; exact Hx]. apply in_flat_map. exists t. split; [eapply nth_error_In; exact Ht|exact Hx].
Qed.

(** ** Sizes *)
Lemma wp_sizeloop (R W : addr -> Prop) (own : hmx -> nat) m m0 h (Q : nat -> mem K -> Prop) : hstr m0 h ->
  Q (list_sum (map own (hnodes h))) m -> wp R W (sizeloop own h) m Q.
Proof.
  revert Q. induction h as [h IH] using hm_rect'. intros Q Hst HQ.
  inversion Hst as [rc cc r ds H1 H2 H3|rc cc f ds H1 H2 H3 H4 H5 H6|rc cc l rs cs ds hs ws P1 P2 P3 P4 P5 P6 P7]; subst.
  - cbn in *. rewrite Nat.add_0_r in HQ. exact HQ.
  - cbn in *. rewrite Nat.add_0_r in HQ. exact HQ.
  - cbn [sizeloop]. cbn [hnodes map list_sum fold_right] in HQ. set (h0 := HM rc cc None None (Some l) rs cs ds) in *.
    apply (wp_sonloop (fun k z m1 => m1 = m /\ z = own h0 + list_sum (map own (flat_map hnodes (firstn k l))))).
    + split; [reflexivity|]. cbn. lia.
    + intros k z m1 Hk [-> ->]. destruct (nth_ex l k) as [s Es]; [lia|].
      rewrite (sget_some _ _ (sizeloop own s)) by (rewrite nth_error_map, Es; reflexivity). cbn [bind].
      apply wp_bind. apply (IH l s eq_refl (nth_error_In _ _ Es)); [apply P7; eapply nth_error_In; exact Es|]. cbn [wp]. split; [reflexivity|].
      rewrite Nat.add_1_r, (firstn_S_nth l k s Es), flat_map_app, map_app, list_sum_app. cbn [flat_map]. rewrite app_nil_r. lia.
    + intros z m1 [-> ->]. rewrite <- P3, firstn_all. exact HQ.
Qed.

(** ** Block trees *)
Inductive bmatch (k : nat) : block G -> hmx -> Prop :=
| bm_rk rc cc ds r d : rk_k r = k -> bmatch k (Blk rc cc true 0 0 [] ds) (HM rc cc (Some r) None None 0 0 d)
| bm_full rc cc ds f d : bmatch k (Blk rc cc false 0 0 [] ds) (HM rc cc None (Some f) None 0 0 d)
| bm_super rc cc a rs cs l ds l' d : l <> [] -> length l = rs * cs -> length l' = rs * cs ->
    (forall i b s, nth_error l i = Some b -> nth_error l' i = Some s -> bmatch k b s) ->
    bmatch k (Blk rc cc a rs cs (map Some l) ds) (HM rc cc None None (Some l') rs cs d).

Lemma bmatch_cl k b h : bmatch k b h -> hm_rc h = b_rc b /\ hm_cc h = b_cc b.
Proof. intros []; auto. Qed.

Lemma splitting_sum (p : cptr G) R : partition_tree (cp_c p) -> splitting p R ->
  let hs := fun i => match nth_error R i with Some q => csz q | None => 0 end in
  nsum (length R) hs = csz p /\ forall i q, nth_error R i = Some q -> c_off (cp_c q) = c_off (cp_c p) + nsum i hs.
Proof.
  intros P S hs.
  assert (T : tiles (c_off (cp_c p)) (c_size (cp_c p)) (map (@cp_c G) R)).
  { destruct S as [->|[N ->]]; [cbn; split; [reflexivity|]; split; lia|]. rewrite cp_split_map. apply (proj2 (P _ (nodes_refl _)) N). }
  assert (Gn : forall R off size, tiles off size (map (@cp_c G) R) ->
    nsum (length R) (fun i => match nth_error R i with Some q => csz q | None => 0 end) = size /\
    forall i q, nth_error R i = Some q -> c_off (cp_c q) = off + nsum i (fun i => match nth_error R i with Some q => csz q | None => 0 end)).
  { clear. assert (Sh : forall n (f : nat -> nat), nsum (S n) f = f 0 + nsum n (fun i => f (S i))).
    { induction n as [|n IH]; intros f; [cbn; lia|]. change (nsum (S (S n)) f) with (nsum (S n) f + f (S n)). rewrite IH. cbn. lia. }
    induction R as [|q R IH]; intros off size T; cbn [map tiles] in T; [subst; split; [reflexivity|]; intros [|i] q; discriminate|].
    destruct T as (E & Hle & T). destruct (IH _ _ T) as [H1 H2]. cbn [length]. split.
    - rewrite Sh. cbn [nth_error]. rewrite H1. unfold csz. lia.
    - intros [|i] q' Hq.
      + injection Hq as <-. cbn. lia.
      + rewrite Sh. cbn [nth_error] in *. rewrite (H2 i q' Hq). unfold csz. lia. }
  destruct (Gn R _ _ T) as [H1 H2]. split; [exact H1|exact H2].
Qed.

Lemma flat_length {A} (cols : list (list A)) n : (forall c, In c cols -> length c = n) -> length (concat cols) = n * length cols.
Proof. induction cols as [|c cols IH]; intros H; [cbn; lia|]. cbn. rewrite app_length, IH by (intros; apply H; right; assumption). rewrite (H c) by (left; reflexivity). lia. Qed.

Lemma block_super (b : block G) : block_tree b -> partition_tree (cp_c (b_rc b)) -> partition_tree (cp_c (b_cc b)) -> b_son b <> [] ->
  exists l hs ws, b_son b = map Some l /\ l <> [] /\ 0 < b_rsons b /\ 0 < b_csons b /\ length l = b_rsons b * b_csons b /\
    nsum (b_rsons b) hs = csz (b_rc b) /\ nsum (b_csons b) ws = csz (b_cc b) /\
    (forall i j s, i < b_rsons b -> j < b_csons b -> nth_error l (i + j * b_rsons b) = Some s ->
       block_tree s /\ partition_tree (cp_c (b_rc s)) /\ partition_tree (cp_c (b_cc s)) /\ csz (b_rc s) = hs i /\ csz (b_cc s) = ws j /\
       c_off (cp_c (b_rc s)) = c_off (cp_c (b_rc b)) + nsum i hs /\ c_off (cp_c (b_cc s)) = c_off (cp_c (b_cc b)) + nsum j ws).
Proof.
  intros T P1 P2 Hne. destruct (block_cases b T) as [(E & _)|(R & C & cols & S1 & S2 & N & E1 & E2 & E3 & F & Hs & Hc)]; [congruence|].
  destruct (splitting_sum _ R P1 S1) as [N1 O1]. destruct (splitting_sum _ C P2 S2) as [N2 O2].
  assert (Hlen : forall c, In c cols -> length c = length R).
  { intros c Hin. destruct (forall2_in _ _ _ _ F Hin) as (q & _ & F'). symmetry. eapply Forall2_len. exact F'. }
  pose proof (Forall2_len _ _ _ F) as HlC. pose proof (splitting_ne _ _ S1) as NR. pose proof (splitting_ne _ _ S2) as NC.
  assert (0 < length R) by (destruct R; [congruence|cbn; lia]). assert (0 < length C) by (destruct C; [congruence|cbn; lia]).
  eexists (concat cols), _, _. split; [exact E3|]. split; [exact Hc|]. rewrite E1, E2. split; [assumption|]. split; [assumption|].
  split; [rewrite (flat_length cols (length R) Hlen); lia|]. split; [exact N1|]. split; [exact N2|].
  intros i j s Hi Hj Hn.
  destruct (nth_ex cols j) as [col Hcol]; [lia|]. destruct (nth_ex C j) as [c Hcj]; [lia|].
  rewrite (nth_concat cols (length R) j i col) in Hn; [|apply Forall_forall; exact Hlen|exact Hcol|exact Hi].
  pose proof (BlockP.Forall2_nth _ _ _ F j c col Hcj Hcol) as F'. destruct (nth_ex R i) as [r Hr]; [lia|].
  destruct (BlockP.Forall2_nth _ _ _ F' i r s Hr Hn) as [Er Ec].
  destruct (Hs col s (nth_error_In _ _ Hcol) (nth_error_In _ _ Hn)) as (Ts & Inr & Inc).
  split; [exact Ts|]. split; [eapply splitting_part; [exact P1|exact S1|exact Inr]|]. split; [eapply splitting_part; [exact P2|exact S2|exact Inc]|].
  rewrite Er, Ec. rewrite Hr, Hcj. split; [reflexivity|]. split; [reflexivity|]. split; [apply O1; exact Hr|apply O2; exact Hcj].
Qed.

Lemma wp_build k b : forall m, block_tree b -> partition_tree (cp_c (b_rc b)) -> partition_tree (cp_c (b_cc b)) ->
  wp TT TT (build_from_block_hmatrix k b) m (fun h m' => bmatch k b h /\ hstr m' h /\ hplaced h /\ hdesc_ok h /\ NoDup (hblocks h) /\
    (forall x, In x (hblocks h) -> next m <= x < next m') /\ keeps (fun a => next m <= fst a) m m').
Proof.
  induction b as [rc cc a rs cs son ds IH] using block_rect'. intros m T P1 P2.
  destruct son as [|o son].
  - destruct (block_cases _ T) as [(_ & E1 & E2)|(R & C & cols & _ & _ & _ & _ & _ & E & _ & _ & Hne)].
    2:{ cbn in E. destruct (concat cols); [congruence|discriminate]. }
    cbn in E1, E2. subst rs cs. cbn [build_from_block_hmatrix]. apply wp_bind. destruct a.
    + apply wp_new_rk_h. intros r m' H1 H2 H3 H4 H5. cbn [update_hmatrix bind wp]. split; [constructor; exact H2|]. split; [exact H1|].
      split; [apply hplaced_leaf; reflexivity|]. split; [intros s [<-|[]]; reflexivity|]. auto.
    + apply wp_new_full_h. intros f m' H1 H3 H4 H5. cbn [update_hmatrix bind wp]. split; [constructor|]. split; [exact H1|].
      split; [apply hplaced_leaf; reflexivity|]. split; [intros s [<-|[]]; reflexivity|]. auto.
  - destruct (block_super _ T P1 P2) as (l & hs & ws & E & Hne & R1 & R2 & Hl & N1 & N2 & Hsub); [cbn; discriminate|].
    cbn [b_son b_rsons b_csons b_rc b_cc] in *.
    cbn [build_from_block_hmatrix]. rewrite E in *. clear E.
    apply wp_bind. destruct (map Some l) as [|o' son'] eqn:E'; [destruct l; [congruence|discriminate]|]. cbv beta iota zeta. rewrite <- E' in *. clear o' son' E'.
    apply wp_bind.
    eapply (wp_sons rs cs _ (fun p => match nth_error l p with Some s => build_from_block_hmatrix k s | None => Fail EBounds end) (fun _ _ => False)
      (fun p s m' => forall x, nth_error l p = Some x -> bmatch k x s /\ hstr m' s /\ hplaced s /\ hdesc_ok s)).
    + intros p l' Hp. destruct (nth_ex l p) as [x Ex]; [lia|]. unfold sget.
      rewrite !nth_error_map, Ex. reflexivity.
    + intros i p x _ _ _ [].
    + intros p x _ [].
    + intros p s W m1 m' H Hk Hd x Hx. destruct (H x Hx) as (H1 & H2 & H3 & H4). split; [exact H1|]. split; [eapply hstr_blk; eauto|]. auto.
    + intros p m1 Hp Hk. destruct (nth_ex l p) as [x Ex]; [lia|]. rewrite Ex.
      destruct (flat_index p rs cs Hp) as (i & j & Hi & Hj & ->).
      destruct (Hsub i j x Hi Hj Ex) as (Tx & Q1 & Q2 & _).
      eapply wp_conseq; [apply (IH x); [apply in_map; eapply nth_error_In; exact Ex|exact Tx|exact Q1|exact Q2]|].
      cbv beta. intros s m2 (H1 & H2 & H3 & H4 & H5 & H6 & H7). split; [intros x' Ex'; injection Ex' as <-; auto|]. split; [exact H5|]. split.
      * intros y Hy. apply H6 in Hy. split; [lia|right; lia].
      * eapply keeps_mono; [|exact H7]. cbv beta. auto.
    + intros l' m' Hl' HP Hn Hbl Hk. cbn [bind]. cbn [update_hmatrix new_super_hmatrix]. cbn [wp]. apply wp_bind.
      assert (HP' : forall p x s, nth_error l p = Some x -> nth_error l' p = Some s -> bmatch k x s /\ hstr m' s /\ hplaced s /\ hdesc_ok s).
      { intros p x s Hx Hs. exact (HP p s Hs x Hx). }
      assert (Hb' : forall x, In x (flat_map hblocks l') -> next m <= x < next m').
      { intros x Hx. destruct (Hbl x Hx) as [H1 [(? & _ & [])|H2]]. lia. }
      apply (wp_sonloop (fun p d m1 => m1 = m' /\ d = 1 + length (flat_map hnodes (firstn p l')))).
      * split; reflexivity.
      * intros p d m1 Hp [-> ->]. destruct (nth_ex l' p) as [s' Hs']; [lia|]. rewrite (sget_some _ _ _ Hs'). cbn [bind wp]. split; [reflexivity|].
        destruct (nth_ex l p) as [x Hx]; [lia|]. destruct (HP' p x s' Hx Hs') as (_ & _ & _ & Hd).
        rewrite Nat.add_1_r. rewrite (firstn_S_nth l' p s' Hs'), flat_map_app, app_length. cbn [flat_map]. rewrite app_nil_r.
        rewrite (Hd s') by (destruct s'; left; reflexivity). lia.
      * intros d m1 [-> ->]. cbn [wp]. rewrite <- Hl', firstn_all.
        assert (Hat : forall i j s, i < rs -> j < cs -> nth_error l' (i + j * rs) = Some s ->
          hrows s = hs i /\ hcols s = ws j /\ c_off (cp_c (hm_rc s)) = c_off (cp_c rc) + nsum i hs /\ c_off (cp_c (hm_cc s)) = c_off (cp_c cc) + nsum j ws /\ hplaced s).
        { intros i j s Hi Hj Hs. destruct (nth_ex l (i + j * rs)) as [x Hx]; [rewrite Hl; apply pos_lt; assumption|].
          destruct (HP' _ _ _ Hx Hs) as (B1 & _ & B3 & _). destruct (Hsub i j x Hi Hj Hx) as (_ & _ & _ & S1 & S2 & S3 & S4).
          destruct (bmatch_cl _ _ _ B1) as [C1 C2]. unfold hrows, hcols. rewrite C1, C2. auto. }
        split; [|split; [|split; [|split; [|split; [|split]]]]].
        -- apply bm_super; [exact Hne|exact Hl|exact Hl'|]. intros i x s Hx Hs. apply (HP' i x s Hx Hs).
        -- apply (hstr_super _ _ _ _ _ _ _ hs ws); auto.
           ++ intros i j s Hi Hj Hs. destruct (Hat i j s Hi Hj Hs) as (A1 & A2 & _). auto.
           ++ intros s Hs. apply In_nth_error in Hs. destruct Hs as [p Hp]. destruct (nth_ex l p) as [x Hx]; [apply nth_lt in Hp; lia|]. apply (HP' p x s Hx Hp).
        -- apply (hplaced_super _ _ _ _ _ _ hs ws). exact Hat.
        -- intros s Hs. cbn [hnodes] in Hs. destruct Hs as [<-|Hs]; [reflexivity|]. apply in_flat_map in Hs. destruct Hs as (s' & Hs' & Hin).
           apply In_nth_error in Hs'. destruct Hs' as [p Hp]. destruct (nth_ex l p) as [x Hx]; [apply nth_lt in Hp; lia|].
           destruct (HP' p x s' Hx Hp) as (_ & _ & _ & Hd). apply Hd. exact Hin.
        -- exact Hn.
        -- exact Hb'.
        -- eapply keeps_mono; [|exact Hk]. cbv beta. intros y [(? & _ & [])|Hy]. exact Hy.
Qed.

(** ... and back *)
Lemma fill_grid' g rc cc a r c (f : nat -> nat -> res (block G)) :
  (forall i j, i < r -> j < c -> f i j = Ok (g i j)) ->
  rfor 0 c (fun j b => rfor 0 r (fun i b => let* s := f i j in set_son b (i + j * r) s) b) (new_block rc cc a r c) =
  Ok (Blk rc cc a r c (map Some (gridl r c g)) None).
Proof.
  intros Hf. assert (Gr : rok (rfor 0 c (fun j b => rfor 0 r (fun i b => let* s := f i j in set_son b (i + j * r) s) b) (new_block rc cc a r c))
    (filled (fun _ _ => True) g rc cc a r c)).
  { apply (rok_for (fun k => filled (fun _ j => j < k) g rc cc a r c)).
    - apply filled_new. intros; lia.
    - intros j b Hj Hb. apply (rok_for (fun k => filled (fun i' j' => j' < j \/ (j' = j /\ i' < k)) g rc cc a r c)).
      + eapply filled_weak; [exact Hb|]. cbn; intros; lia.
      + intros i b1 Hi Hb1. rewrite Hf by lia. cbn [rbind]. eapply rok_conseq; [eapply (filled_set _ g rc cc a r c b1 i j); [lia|lia|exact Hb1]|].
        intros b2 H2. eapply filled_weak; [exact H2|]. cbn; intros; lia.
      + intros b1 Hb1. eapply filled_weak; [exact Hb1|]. cbn; intros; lia.
    - intros b Hb. eapply filled_weak; [exact Hb|]. cbn; intros; lia. }
  apply rok_inv in Gr as (b & E & H). rewrite E. f_equal. apply filled_all. exact H.
Qed.

Lemma grid_of {A} (d : A) (l : list A) r c : length l = r * c -> gridl r c (fun i j => nth (i + j * r) l d) = l.
Proof.
  intros Hl. apply nth_error_ext. intros k. destruct (Nat.lt_ge_cases k (r * c)) as [Hk|Hk].
  - destruct (flat_index k r c Hk) as (i & j & Hi & Hj & ->). rewrite gridl_nth by assumption. symmetry. apply nth_error_nth'. lia.
  - rewrite (proj2 (nth_error_None _ k)), (proj2 (nth_error_None _ k)); auto; [lia|]. rewrite gridl_length. lia.
Qed.

Lemma build_back k b : forall h, block_tree b -> (forall x, In x (bnodes b) -> b_a x = true -> b_son x = []) -> bmatch k b h ->
  build_from_hmatrix_block h = Ok b.
Proof.
  induction b as [rc cc a rs cs son ds IH] using block_rect'. intros h T Ha H.
  pose proof (T _ (bnodes_refl _)) as [Ed _]. cbn [b_desc] in Ed.
  inversion H as [? ? ? r d Hk|? ? ? f d|? ? ? ? ? l ? l' d Hne Hl Hl' Hs]; subst; cbn [build_from_hmatrix_block].
  - cbn [rbind]. rewrite update_leaf. cbn in Ed. rewrite Ed. reflexivity.
  - cbn [rbind]. rewrite update_leaf. cbn in Ed. rewrite Ed. reflexivity.
  - set (d0 := Blk rc cc a rs cs [] None : block G).
    assert (E : rfor 0 cs (fun j b => rfor 0 rs (fun i b => match nth_error (map build_from_hmatrix_block l') (i + j * rs) with
        | Some p => let* s := p in set_son b (i + j * rs) s | None => Err EBounds end) b) (new_block rc cc false rs cs) =
      Ok (Blk rc cc false rs cs (map Some l) None)).
    { rewrite <- (grid_of d0 l rs cs Hl) at 1.
      rewrite <- (fill_grid' _ rc cc false rs cs (fun i j => match nth_error (map build_from_hmatrix_block l') (i + j * rs) with Some p => p | None => Err EBounds end)).
      - apply rfor_ext. intros j b0 _. apply rfor_ext. intros i b1 _. destruct (nth_error _ (i + j * rs)); reflexivity.
      - intros i j Hi Hj. rewrite nth_error_map. destruct (nth_ex l' (i + j * rs)) as [s Es]; [rewrite Hl'; apply pos_lt; assumption|]. rewrite Es. cbn [option_map].
        destruct (nth_ex l (i + j * rs)) as [x Ex]; [rewrite Hl; apply pos_lt; assumption|]. rewrite (nth_error_nth _ _ _ Ex).
        pose proof (nth_error_In _ _ Ex) as Hin.
        apply (IH x).
        + apply in_map. exact Hin.
        + eapply block_sub; [exact T|]. cbn. apply in_map. exact Hin.
        + intros y Hy. apply Ha. apply in_bnodes. right. exists x. split; [cbn; apply in_map; exact Hin|exact Hy].
        + eapply Hs; eassumption. }
    rewrite E. cbn [rbind]. rewrite update_grid; [|exact Hl|].
    + assert (a = false) as ->.
      { destruct a; [|reflexivity]. pose proof (Ha _ (bnodes_refl _) eq_refl) as E0. cbn in E0. destruct l; [congruence|discriminate]. }
      rewrite Ed. cbn [bnodes length]. do 3 f_equal. change (flat_map (fun o => match o with Some s => bnodes s | None => [] end) (map Some l)) with (flat_map (ol bnodes) (map Some l)). rewrite flat_some. reflexivity.
    + intros s Hs0. apply T. apply in_bnodes. right. exists s. split; [cbn; apply in_map; exact Hs0|apply bnodes_refl].
Qed.

Lemma bmatch_keys k b : forall h, bmatch k b h -> map hkey (hleaves h) = map (bkey k) (bleaves b).
Proof.
  induction b as [rc cc a rs cs son ds IH] using block_rect'. intros h H.
  inversion H as [? ? ? r d Hk|? ? ? f d|? ? ? ? ? l ? l' d Hne Hl Hl' Hs]; subst.
  - reflexivity.
  - reflexivity.
  - rewrite bleaves_eq. cbn [b_son hleaves]. destruct (map Some l) eqn:E; [destruct l; [congruence|discriminate]|]. rewrite <- E in *. clear E. rewrite flat_some.
    assert (F : Forall2 (fun x s => map hkey (hleaves s) = map (bkey k) (bleaves x)) l l').
    { apply Forall2_nth_error; [lia|]. intros i x s Hx Hs'. apply (IH x); [apply in_map; eapply nth_error_In; exact Hx|]. eapply Hs; eassumption. }
    clear -F. induction F as [|x s l l' Hxs F IH]; [reflexivity|]. cbn. rewrite !map_app. congruence.
Qed.
End HmP6.
