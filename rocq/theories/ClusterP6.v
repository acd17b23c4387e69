(** * The whole construction: build_cluster *)
From Coq Require Import Arith Lia List Bool Permutation.
From Verif Require Import Fld Ord Prog Arr Loop Cluster ClusterSpec ClusterP ClusterP2 ClusterP3.
Import ListNotations.

Section Build.
  Context {K : ofops}.
  Variables (X Smin Smax : nat -> nat -> K) (W : nat -> K) (N d clf : nat).
  Notation gok := (gok X Smin Smax W N d).
  Notation iok := (iok N).
  Hypothesis Hd : 0 < d.

  Lemma same_b_iff (L : ofield_laws K) p k : same_b X d p k = true <-> same_point d X p k.
  Proof.
    unfold same_b. rewrite forallb_forall. split.
    - intros H j Hj. apply (fl_eqb K (ol_field K L)). apply H. apply in_seq. lia.
    - intros H j Hj. apply (fl_eqb K (ol_field K L)). apply H. apply in_seq in Hj. lia.
  Qed.

  Lemma no_clump_spread (L : ofield_laws K) f off size : no_clump d X f off size clf -> spread X d clf f off size.
  Proof.
    intros H p. unfold slice.
    assert (E : forall l, filter (same_b X d p) (map f l) = map f (filter (fun i => same_b X d p (f i)) l)).
    { induction l as [|x l IH]; cbn; [reflexivity|]. destruct (same_b X d p (f x)); cbn; rewrite IH; reflexivity. }
    rewrite E, map_length. apply H.
    - apply NoDup_filter. apply seq_NoDup.
    - intros q Hq. apply filter_In in Hq as [Hq _]. apply in_seq in Hq. exact Hq.
    - intros q r Hq Hr. apply filter_In in Hq as [_ Hq]. apply filter_In in Hr as [_ Hr].
      apply (same_b_iff L) in Hq. apply (same_b_iff L) in Hr.
      intros j Hj. rewrite <- Hq, <- Hr by exact Hj. reflexivity.
  Qed.

  Definition is_adaptive (m : clustermode) : bool := match m with H2_ADAPTIVE => true | _ => false end.

  Definition bad_build (n : nat) (f : nat -> nat) (off size : nat) (mode : clustermode) (e : err) : Prop :=
    match mode with
    | H2_ADAPTIVE => bad_ad (K:=K) n size e
    | H2_REGULAR => bad_reg X d clf n f off size 0 e
    | H2_SIMSUB => bad_ss X d clf n f off size (lo X f off (size - 1)) (hi X f off (size - 1)) e
    | H2_PCA => e = EFuel
    end.

  Lemma rok_build eig n mode : eig_ok eig -> forall cf idx len f off size,
    gok cf -> iok idx len f off size -> 0 < size ->
    rokE (bad_build n f off size mode) (build_cluster eig n cf idx off size clf mode)
      (built X Smin Smax d clf (is_adaptive mode) cf len f off size).
  Proof.
    intros He cf idx len f off size G I Hs. unfold build_cluster. destruct mode.
    - eapply rok_adaptive; eassumption.
    - eapply rokE_seq; [eapply rok_point_bbox; eassumption|]. intros cf1 (GS & G1 & V1 & V2).
      eapply rokE_conseq; [eapply (rok_regular X Smin Smax W N d clf Hd n); eassumption|intros e HE; exact HE|].
      intros [[t cf'] idx'] (f' & A1 & A2 & A3 & A4 & A5). exists f'. repeat (split; [assumption|]).
      split; [eapply geo_same_trans; eassumption|assumption].
    - eapply rokE_seq; [eapply rok_point_bbox; eassumption|]. intros cf1 (GS & G1 & V1 & V2).
      eapply rokE_conseq; [eapply (rok_simsub X Smin Smax W N d clf n); eassumption|intros e HE; exact HE|].
      intros [[t cf'] idx'] (f' & A1 & A2 & A3 & A4 & A5). exists f'. repeat (split; [assumption|]).
      split; [eapply geo_same_trans; eassumption|assumption].
    - eapply rok_pca; eassumption.
  Qed.

  (** ** Coinciding points *)
  Definition coincide (f : nat -> nat) (off size : nat) : Prop :=
    forall i i', off <= i < off + size -> off <= i' < off + size -> same_point d X (f i) (f i').

  Lemma coincide_box f off size j : coincide f off size -> 0 < size -> j < d ->
    lo X f off (size - 1) j = X (f off) j /\ hi X f off (size - 1) j = X (f off) j.
  Proof.
    intros C Hs Hj. destruct (lo_att X f off (size - 1) j) as (i & Hi & ->).
    destruct (hi_att X f off (size - 1) j) as (i' & Hi' & ->).
    split; apply C; lia.
  Qed.

  Lemma fsub_self (L : ofield_laws K) (x : K) : fsub x x = f0.
  Proof. rewrite (fsub_def (fl_ring K (ol_field K L))). apply (Ropp_def (rl_ring K (fl_ring K (ol_field K L)))). Qed.

  Lemma regular_diverges (L : ofield_laws K) n : forall cf idx len f off size dir,
    gok cf -> iok idx len f off size -> clf < size -> coincide f off size -> dir < d ->
    build_regular n cf idx off size clf dir = Err EFuel.
  Proof.
    induction n as [|n IH]; intros cf idx len f off size dir G I Hc C Hdir; cbn [build_regular]; [reflexivity|].
    destruct (Nat.ltb_spec 0 size); [|lia]. cbn [rassert rbind].
    destruct (Nat.ltb_spec clf size); [|lia].
    destruct (rok_inv _ _ (rok_point_bbox X Smin Smax W N d cf idx len f off size G I ltac:(lia)))
      as (cf1 & -> & GS & G1 & V1 & V2). cbn [rbind].
    rewrite (aval_get _ _ _ _ V2), (aval_get _ _ _ _ V1) by exact Hdir. cbn [rbind].
    destruct (coincide_box f off size dir C ltac:(lia) Hdir) as [-> ->].
    rewrite (fsub_self L), (ol_irrefl K L), (proj2 (fl_eqb K (ol_field K L) f0 f0) eq_refl). cbn [rassert rbind].
    assert (g_dim cf1 = d) as -> by apply G1.
    rewrite (IH cf1 idx len f off size _ G1 I Hc C); [reflexivity|]. apply (newd_lt d Hd dir Hdir).
  Qed.

  Lemma pca_diverges eig n : eig_ok eig -> forall cf idx len f off size,
    gok cf -> iok idx len f off size -> clf < size -> coincide f off size ->
    build_pca eig n cf idx off size clf = Err EFuel.
  Proof.
    intros He. induction n as [|n IH]; intros cf idx len f off size G I Hc C; cbn [build_pca]; [reflexivity|].
    destruct (Nat.ltb_spec 0 size); [|lia]. cbn [rassert rbind].
    destruct (Nat.ltb_spec clf size); [|lia].
    destruct (rok_inv _ _ (rok_pca_center X Smin Smax W N d cf idx len f off size G I)) as (x & -> & Fx & Vx). cbn [rbind].
    destruct (rok_inv _ _ (rok_pca_cov X Smin Smax W N d cf x Fx idx len f off size G I Vx)) as (c & -> & _). cbn [rbind].
    destruct (He (g_dim cf) c) as (Fv & Vv). assert (Edim : g_dim cf = d) by apply G. rewrite Edim in *.
    pose proof (rok_pca_test X Smin Smax W N d cf x Fx _ Fv G Vx Vv) as T.
    destruct (rok_inv _ _ (rok_split N _ _ idx len f off size I T)) as ([[idx2 size0] size1] & -> & f' & I2 & Es & O2 & P2 & B1 & B2).
    cbn [rbind].
    assert (C' : coincide f' off size).
    { intros i i' Hi Hi'. destruct (perm_in_slice f' f off size i (Permutation_sym P2) Hi) as (a & Ha & <-).
      destruct (perm_in_slice f' f off size i' (Permutation_sym P2) Hi') as (b & Hb & <-). apply C; assumption. }
    assert (I2' : iok idx2 len f' off size) by (eapply iok_perm; eassumption).
    rewrite Es, Nat.eqb_refl. cbn [rassert rbind].
    destruct (Nat.ltb_spec 0 size0) as [Z0|Z0].
    - destruct (Nat.ltb_spec 0 size1) as [Z1|Z1].
      + exfalso. specialize (B1 off ltac:(lia)). specialize (B2 (off + size0) ltac:(lia)).
        rewrite (sum_ext d _ (fun j => fmul (fsub (X (f' (off + size0)) j) (Fx j)) (Fv j))) in B1; [congruence|].
        intros j Hj. rewrite (C' off (off + size0)) by lia. reflexivity.
      + replace size0 with size by lia. rewrite (IH cf idx2 len f' off size G I2' Hc C'). reflexivity.
    - destruct (Nat.ltb_spec 0 size1); [|lia]. cbn [rassert rbind]. replace size1 with size by lia.
      rewrite (IH cf idx2 len f' off size G I2' Hc C'). reflexivity.
  Qed.

  (** build_help_cluster keeps coinciding points together. *)
  Lemma help_one (L : ofield_laws K) rem : forall cf idx off size dir lv H1 H2,
    gok cf -> aval (g_hmin cf) d H1 -> aval (g_hmax cf) d H2 -> (forall j, j < d -> H1 j = H2 j) -> dir + rem = d ->
    rok (build_help rem cf idx off size clf dir lv) (fun '(s, cf', idx', lv') => idx' = idx /\ lv' = lv + 1 /\ gok cf' /\
      exists l, leaves s = [l] /\ c_off l = off /\ c_size l = size /\ aval (c_bmin l) d H1 /\ aval (c_bmax l) d H2).
  Proof.
    induction rem as [|rem IH]; intros cf idx off size dir lv H1 H2 G V1 V2 E Hr; cbn [build_help].
    - assert (g_dim cf = d) as -> by apply G. apply rok_bind.
      eapply (rok_for (fun j '(h1, h2) => aprt h1 d (fun k => k < j) H1 /\ aprt h2 d (fun k => k < j) H2)).
      { split; (split; [apply repeat_length|intros; lia]). }
      { intros j [h1 h2] Hj [A1 A2]. rewrite (aval_get _ _ _ _ V1) by lia. cbn [rbind].
        apply rok_bind. eapply rok_aset_prt; [exact A1|lia|]. intros h1' A1'.
        rewrite (aval_get _ _ _ _ V2) by lia. cbn [rbind].
        apply rok_bind. eapply rok_aset_prt; [exact A2|lia|]. intros h2' A2'. cbn.
        split; (eapply aprt_ext; [eassumption| |]; cbn; unfold afupd; intros k Hk Hk2; [lia|]; bsplit; subst; reflexivity). }
      intros [h1 h2] [A1 A2]. cbn. split; [reflexivity|]. split; [reflexivity|]. split; [exact G|].
      eexists. split; [reflexivity|]. split; [reflexivity|]. split; [reflexivity|].
      split; (eapply aprt_aval; [|eassumption]; cbn; lia).
    - rewrite (aval_get _ _ _ _ V2), (aval_get _ _ _ _ V1) by lia. cbn [rbind].
      rewrite E by lia. rewrite (fsub_self L), (ol_irrefl K L), (proj2 (fl_eqb K (ol_field K L) f0 f0) eq_refl). cbn [rassert rbind].
      apply rok_bind. eapply rok_conseq; [eapply IH; try eassumption; lia|].
      intros [[[s cf'] idx'] lv'] (-> & -> & G' & l & El & R). cbn. split; [reflexivity|]. split; [reflexivity|].
      split; [exact G'|]. exists l. split; [rewrite El; reflexivity|exact R].
  Qed.

  Lemma simsub_diverges (L : ofield_laws K) n : forall cf idx len f off size H1 H2,
    gok cf -> iok idx len f off size -> clf < size ->
    aval (g_hmin cf) d H1 -> aval (g_hmax cf) d H2 -> (forall j, j < d -> H1 j = H2 j) ->
    build_simsub n clf cf idx off size = Err EFuel.
  Proof.
    induction n as [|n IH]; intros cf idx len f off size H1 H2 G I Hc V1 V2 E; cbn [build_simsub]; [reflexivity|].
    destruct (Nat.ltb_spec 0 size); [|lia]. cbn [rassert rbind].
    destruct (Nat.ltb_spec clf size); [|lia]. assert (Edim : g_dim cf = d) by apply G. rewrite Edim.
    destruct (rok_inv _ _ (help_one L d cf idx off size 0 0 H1 H2 G V1 V2 E eq_refl))
      as ([[[s cf'] idx'] lv'] & -> & -> & -> & G' & l & El & Eo & Ez & B1 & B2). cbn [rbind].
    rewrite lis_fold, El. cbn [rfold leaf_step]. assert (g_dim cf' = d) as -> by apply G'.
    match goal with |- context [rfor 0 d ?b ?s0] => assert (R : rok (rfor 0 d b s0) (fun '(h1, h2) => aval h1 d H1 /\ aval h2 d H2)) end.
    { eapply (rok_for (fun j '(h1, h2) => aprt h1 d (fun k => k < j) H1 /\ aprt h2 d (fun k => k < j) H2)).
      - destruct G' as (GV & D & M).
        split; (split; [|intros; lia]); [rewrite (gv_hmin _ _ _ _ _ GV)|rewrite (gv_hmax _ _ _ _ _ GV)]; exact D.
      - intros j [h1 h2] Hj [A1 A2]. rewrite (aval_get _ _ _ _ B1) by lia. cbn [rbind].
        apply rok_bind. eapply rok_aset_prt; [exact A1|lia|]. intros h1' A1'.
        rewrite (aval_get _ _ _ _ B2) by lia. cbn [rbind].
        apply rok_bind. eapply rok_aset_prt; [exact A2|lia|]. intros h2' A2'. cbn.
        split; (eapply aprt_ext; [eassumption| |]; cbn; unfold afupd; intros k Hk Hk2; [lia|]; bsplit; subst; reflexivity).
      - intros [h1 h2] [A1 A2]. split; (eapply aprt_aval; [|eassumption]; cbn; lia). }
    apply rok_inv in R as ([h1 h2] & -> & U1 & U2). cbn [rbind].
    assert (GS : geo_same cf' (set_h cf' h1 h2)).
    { destruct G' as (GV & D & M). apply geo_same_set; [rewrite (proj1 U1)|rewrite (proj1 U2)]; auto. }
    rewrite Eo, Ez, (IH (set_h cf' h1 h2) idx len f off size H1 H2); auto. eapply gok_same; eassumption.
  Qed.

  (** ** Termination of simultaneous subdivision *)
  Lemma pow2_le (L : ofield_laws K) k k' (g w : K) : k <= k' -> flt f0 g = true ->
    flt w (fmul (pow2 k) g) = true -> flt w (fmul (pow2 k') g) = true.
  Proof.
    intros H Hg Hw. induction H as [|k' H IH]; [exact Hw|]. eapply (ol_trans K L); [exact IH|].
    apply (pow2_grow L). exact Hg.
  Qed.

  Lemma arch_list (L : ofield_laws K) (A : archimedean K) (l : list (K * K)) :
    exists k, forall w g, In (w, g) l -> flt f0 g = true -> flt w (fmul (pow2 k) g) = true.
  Proof.
    induction l as [|[w g] l (k & IH)].
    - exists 0. intros w g [].
    - destruct (flt f0 g) eqn:E.
      + destruct (A w g E) as (k' & Hk'). exists (Nat.max k k'). intros w' g' [[= <- <-]|H] Hg.
        * eapply pow2_le; [exact L| |exact Hg|exact Hk']. lia.
        * eapply pow2_le; [exact L| |exact Hg|apply IH; assumption]. lia.
      + exists k. intros w' g' [[= <- <-]|H] Hg; [congruence|auto].
  Qed.

  Lemma good_ss_ex (L : ofield_laws K) (A : archimedean K) f off size : 0 < size -> spread X d clf f off size ->
    exists n0, forall n, n0 <= n -> good_ss X d clf n f off size (lo X f off (size - 1)) (hi X f off (size - 1)).
  Proof.
    intros Hs SP. set (H1 := lo X f off (size - 1)). set (H2 := hi X f off (size - 1)).
    set (r := seq off size).
    destruct (arch_list L A (flat_map (fun i => flat_map (fun i' => map (fun j =>
      (width H1 H2 j, fsub (X (f i') j) (X (f i) j))) (seq 0 d)) r) r)) as (k & Hk).
    exists (S k). intros n Hn. split; [exact L|]. split; [exact SP|]. split.
    - intros i j Hi Hj. split; [apply (lo_le (ofield_order L)); lia|apply (hi_ge (ofield_order L)); lia].
    - exists k. split; [lia|]. intros i i' j Hi Hi' Hj Hlt. apply Hk.
      + apply in_flat_map. exists i. split; [apply in_seq; exact Hi|].
        apply in_flat_map. exists i'. split; [apply in_seq; exact Hi'|].
        apply in_map_iff. exists j. split; [reflexivity|]. apply in_seq. lia.
      + apply (proj1 (flt_sub L _ _)). exact Hlt.
  Qed.

  Lemma good_reg_ex (L : ofield_laws K) f off size n : 0 < size -> spread X d clf f off size -> (size + 1) * d <= n ->
    good_reg X d clf n f off size 0.
  Proof.
    intros Hs SP Hn. split; [exact L|]. split; [nia|]. split; [exact SP|]. intros Hc.
    destruct (spread_wide X d clf Hd L f off size SP Hc) as (j & Hj & Wj).
    exists j. split; [exact Hj|]. rewrite Nat.add_0_l, Nat.mod_small by exact Hj. split; [exact Wj|nia].
  Qed.
End Build.

Section Box.
  Context {K : ofops}.
  (** ** Boxes of leaves are tight *)
  Lemma rok_support_bbox (cf : cgeom K) X Smin Smax W idx n f size off sons dim b1 b2 ds typ :
    geo_val cf X Smin Smax W -> aval idx n f -> off + size <= n -> (forall i, off <= i < off + size -> f i < g_nidx cf) ->
    0 < size -> length b1 = g_dim cf -> length b2 = g_dim cf ->
    rok (update_support_bbox cf idx (Cl size off sons dim b1 b2 ds typ)) (fun t => exists c1 c2,
      t = Cl size off sons dim c1 c2 ds typ /\ aval c1 (g_dim cf) (lo Smin f off (size - 1)) /\
      aval c2 (g_dim cf) (hi Smax f off (size - 1))).
  Proof.
    intros GV Hi Hn HN Hs L1 L2. unfold update_support_bbox.
    destruct (Nat.ltb_spec 0 size); [|lia]. cbn [rassert rbind].
    pose proof (rok_box_loops (aget2 (g_smin cf)) (aget2 (g_smax cf)) Smin Smax (g_nidx cf) (g_dim cf)) as B.
    assert (G1 : forall k j, k < g_nidx cf -> j < g_dim cf -> aget2 (g_smin cf) k j = Ok (Smin k j)).
    { intros k j Hk Hj. eapply row_get; [apply (gv_smin _ _ _ _ _ GV)| |]; assumption. }
    assert (G2 : forall k j, k < g_nidx cf -> j < g_dim cf -> aget2 (g_smax cf) k j = Ok (Smax k j)).
    { intros k j Hk Hj. eapply row_get; [apply (gv_smax _ _ _ _ _ GV)| |]; assumption. }
    specialize (B G1 G2 idx n f off size (b1, b2)
      (fun '(h1, h2) => aval h1 (g_dim cf) (lo Smin f off (size - 1)) /\ aval h2 (g_dim cf) (hi Smax f off (size - 1)))
      Hi Hs Hn HN L1 L2 (fun b1 b2 P Q => conj P Q)).
    unfold box_loops in B. apply rok_inv in B as ([h1 h2] & E & P1 & P2).
    destruct (rfor 0 (g_dim cf) _ _) as [[a1 a2]|e]; [|discriminate E]. cbn [rbind] in E |- *.
    rewrite E. cbn. eauto.
  Qed.
End Box.
