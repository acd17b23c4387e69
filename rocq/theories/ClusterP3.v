(** * Proofs about simultaneous subdivision and principal component clustering *)
From Coq Require Import Arith Lia List Bool Permutation Ring.
From Verif Require Import Fld Ord Prog Arr Loop Cluster ClusterSpec ClusterP ClusterP2.
Import ListNotations.

Section Build.
  Context {K : ofops}.
  Variables (X Smin Smax : nat -> nat -> K) (W : nat -> K) (N d clf : nat).

  Notation gok := (gok X Smin Smax W N d).
  Notation iok := (iok N).

  (** All points of the range lie in the box. *)
  Definition inside (f : nat -> nat) (off size : nat) (H1 H2 : nat -> K) : Prop :=
    forall i j, off <= i < off + size -> j < d -> fle (H1 j) (X (f i) j) /\ fle (X (f i) j) (H2 j).

  Lemma inside_perm f f' off size H1 H2 : inside f off size H1 H2 ->
    Permutation (slice f off size) (slice f' off size) -> inside f' off size H1 H2.
  Proof.
    intros H P i j Hi Hj.
    destruct (perm_in_slice f' f off size i (Permutation_sym P) Hi) as (i' & Hi' & <-). apply H; assumption.
  Qed.

  Lemma inside_ext f g off size H1 H2 : inside f off size H1 H2 ->
    (forall i, off <= i < off + size -> f i = g i) -> inside g off size H1 H2.
  Proof. intros H E i j Hi Hj. rewrite <- E by exact Hi. apply H; assumption. Qed.

  Lemma inside_le (L : ofield_laws K) f off size H1 H2 j : inside f off size H1 H2 -> 0 < size -> j < d ->
    fle (H1 j) (H2 j).
  Proof.
    intros H Hs Hj. destruct (H off j ltac:(lia) Hj). eapply (ole_trans (ofield_order L)); eassumption.
  Qed.

  Definition width (H1 H2 : nat -> K) (j : nat) : K := fsub (H2 j) (H1 j).

  (** What build_help_cluster says about a leaf. *)
  Definition help_leaf (f f' : nat -> nat) (off size dir : nat) (H1 H2 : nat -> K) (s : cluster K) : Prop :=
    0 < c_size s /\ exists B1 B2, aval (c_bmin s) d B1 /\ aval (c_bmax s) d B2 /\
      (ofield_laws K -> inside f off size H1 H2 ->
        inside f' (c_off s) (c_size s) B1 B2 /\
        forall j, j < d -> width B1 B2 j = if j <? dir then width H1 H2 j else fdiv (width H1 H2 j) f2).

  Definition bad_help (f : nat -> nat) (off size : nat) (H1 H2 : nat -> K) (e : err) : Prop :=
    e = EAssert /\ ~ (ofield_laws K /\ inside f off size H1 H2).

  Definition helped (cf : cgeom K) (n : nat) (f : nat -> nat) (off size dir : nat) (H1 H2 : nat -> K)
    (lv : nat) (r : cluster K * cgeom K * arr nat * nat) : Prop :=
    let '(s, cf', idx', lv') := r in
    exists f', aval idx' n f' /\ (forall i, ~ (off <= i < off + size) -> f' i = f i) /\
      Permutation (slice f off size) (slice f' off size) /\ geo_same cf cf' /\
      aval (g_hmin cf') d H1 /\ aval (g_hmax cf') d H2 /\
      lv' = lv + length (leaves s) /\ tiles off size (leaves s) /\
      forall l, In l (leaves s) -> help_leaf f f' off size dir H1 H2 l.

  Lemma tiles_app (l1 : list (cluster K)) : forall off a b l2, tiles off a l1 -> tiles (off + a) b l2 -> tiles off (a + b) (l1 ++ l2).
  Proof.
    induction l1 as [|s l1 IH]; intros off a b l2 H1 H2; cbn in *.
    - subst a. rewrite Nat.add_0_r in H2. exact H2.
    - destruct H1 as (E & Hs & H1). split; [exact E|]. split; [lia|].
      replace (a + b - c_size s) with ((a - c_size s) + b) by lia. apply IH; [exact H1|].
      replace (off + c_size s + (a - c_size s)) with (off + a) by lia. exact H2.
  Qed.

  Lemma afupd_restore {A} (H : nat -> A) i v : forall k, afupd (afupd H i v) i (H i) k = H k.
  Proof. intros k. unfold afupd. destruct (Nat.eqb_spec k i) as [->|]; reflexivity. Qed.

  Lemma width_l (L : ofield_laws K) H1 H2 dir j :
    let m := fdiv (fadd (H2 dir) (H1 dir)) f2 in
    width H1 (afupd H2 dir m) j = if j =? dir then fdiv (width H1 H2 j) f2 else width H1 H2 j.
  Proof.
    cbn. unfold width, afupd. destruct (Nat.eqb_spec j dir) as [->|]; [|reflexivity].
    apply (proj1 (mid_width L (H1 dir) (H2 dir))).
  Qed.
  Lemma width_r (L : ofield_laws K) H1 H2 dir j :
    let m := fdiv (fadd (H2 dir) (H1 dir)) f2 in
    width (afupd H1 dir m) H2 j = if j =? dir then fdiv (width H1 H2 j) f2 else width H1 H2 j.
  Proof.
    cbn. unfold width, afupd. destruct (Nat.eqb_spec j dir) as [->|]; [|reflexivity].
    apply (proj2 (mid_width L (H1 dir) (H2 dir))).
  Qed.

  Lemma help_leaf_weaken f0' f f' g' off size off' size' dir H1 H2 H1' H2' s :
    help_leaf f f' off' size' (dir + 1) H1' H2' s ->
    (forall i, c_off s <= i < c_off s + c_size s -> f' i = g' i) ->
    (ofield_laws K -> inside f0' off size H1 H2 -> inside f off' size' H1' H2') ->
    (ofield_laws K -> inside f0' off size H1 H2 -> forall j, j < d -> width H1' H2' j = if j =? dir then fdiv (width H1 H2 j) f2 else width H1 H2 j) ->
    help_leaf f0' g' off size dir H1 H2 s.
  Proof.
    intros (P & B1 & B2 & V1 & V2 & Hh) Ex Hin Hw. split; [exact P|]. exists B1, B2.
    split; [exact V1|]. split; [exact V2|]. intros L I. destruct (Hh L (Hin L I)) as [A B].
    split; [eapply inside_ext; [exact A|exact Ex]|]. intros j Hj. rewrite B, (Hw L I) by exact Hj.
    destruct (Nat.eqb_spec j dir), (Nat.ltb_spec j (dir + 1)), (Nat.ltb_spec j dir); try lia; reflexivity.
  Qed.

  Lemma rok_help rem : forall cf idx n f off size dir H1 H2 lv,
    gok cf -> iok idx n f off size -> 0 < size -> dir + rem = d ->
    aval (g_hmin cf) d H1 -> aval (g_hmax cf) d H2 ->
    rokE (bad_help f off size H1 H2) (build_help rem cf idx off size clf dir lv) (helped cf n f off size dir H1 H2 lv).
  Proof.
    induction rem as [|rem IH]; intros cf idx n f off size dir H1 H2 lv G I Hs Hr V1 V2; cbn [build_help].
    - pose proof G as (GV & D & M). rewrite D.
      eapply rokE_seq.
      { eapply (rok_for (fun j '(h1, h2) => aprt h1 d (fun k => k < j) H1 /\ aprt h2 d (fun k => k < j) H2))
          with (Q := fun '(h1, h2) => aval h1 d H1 /\ aval h2 d H2).
        - split; (split; [apply repeat_length|intros; lia]).
        - intros j [h1 h2] Hj [A1 A2]. rewrite (aval_get _ _ _ _ V1) by lia. cbn [rbind].
          apply rok_bind. eapply rok_aset_prt; [exact A1|lia|]. intros h1' A1'.
          rewrite (aval_get _ _ _ _ V2) by lia. cbn [rbind].
          apply rok_bind. eapply rok_aset_prt; [exact A2|lia|]. intros h2' A2'. cbn.
          split; (eapply aprt_ext; [eassumption| |]; cbn; unfold afupd; intros k Hk Hk2; [lia|]; bsplit; subst; reflexivity).
        - intros [h1 h2] [A1 A2]. split; (eapply aprt_aval; [|eassumption]; cbn; lia). }
      intros [b1 b2] [A1 A2]. cbn. exists f. split; [apply I|]. split; [auto|]. split; [apply Permutation_refl|].
      split; [eapply geo_same_refl; exact GV|]. split; [exact V1|]. split; [exact V2|]. split; [reflexivity|].
      split; [cbn; lia|]. intros l [<-|[]]. split; [exact Hs|]. cbn. exists H1, H2.
      split; [exact A1|]. split; [exact A2|]. intros L Hin. split; [exact Hin|]. intros j Hj.
      destruct (Nat.ltb_spec j dir); [reflexivity|lia].
    - assert (Hdir : dir < d) by lia.
      rewrite (aval_get _ _ _ _ V2) by lia. cbn [rbind].
      rewrite (aval_get _ _ _ _ V1) by lia. cbn [rbind].
      destruct (flt f0 _) eqn:Ha.
      + unfold midpoint. rewrite (aval_get _ _ _ _ V2) by lia. cbn [rbind].
        rewrite (aval_get _ _ _ _ V1) by lia. cbn [rbind].
        set (m := fdiv (fadd (H2 dir) (H1 dir)) f2).
        eapply rokE_seq; [eapply (rok_split N (left_of cf dir m)); [exact I|]|].
        { eapply left_of_ok; [exact G|exact Hdir]. }
        intros [[idx2 size0] size1] (f2' & I2 & Es & O2 & P2 & T2 & F2).
        assert (I2' : iok idx2 n f2' off size) by (eapply iok_perm; eassumption).
        assert (Hw : ofield_laws K -> flt (H1 dir) m = true /\ flt m (H2 dir) = true).
        { intros L. apply (mid_lt L). apply (flt_sub L). exact Ha. }
        assert (InL : forall o s, off <= o -> o + s <= off + size0 -> ofield_laws K -> inside f off size H1 H2 ->
                  inside f2' o s H1 (afupd H2 dir m)).
        { intros o s Ho Hos L Hin i j Hi Hj. destruct (inside_perm _ _ _ _ _ _ Hin P2 i j ltac:(lia) Hj) as [Y1 Y2].
          split; [exact Y1|]. unfold afupd. destruct (Nat.eqb_spec j dir) as [->|]; [|exact Y2].
          apply (olt_le (ofield_order L)). apply T2. lia. }
        assert (InR : forall o s, off + size0 <= o -> o + s <= off + size -> ofield_laws K -> inside f off size H1 H2 ->
                  inside f2' o s (afupd H1 dir m) H2).
        { intros o s Ho Hos L Hin i j Hi Hj. destruct (inside_perm _ _ _ _ _ _ Hin P2 i j ltac:(lia) Hj) as [Y1 Y2].
          split; [|exact Y2]. unfold afupd. destruct (Nat.eqb_spec j dir) as [->|]; [|exact Y1].
          apply F2. lia. }
        destruct (Nat.ltb_spec 0 size0) as [Z0|Z0].
        * destruct (Nat.ltb_spec 0 size1) as [Z1|Z1].
          -- eapply rokE_seq; [eapply put_hmax_ok; [exact G|exact Hdir]|].
             intros cfa (GSa & Ea & Va). assert (Ga : gok cfa) by (eapply gok_same; eassumption).
             apply rokE_bind. eapply rokE_conseq.
             { apply (IH cfa idx2 n f2' off size0 (dir + 1) H1 (afupd H2 dir m) lv); auto; try lia.
               - eapply iok_sub; [exact I2'|lia|lia].
               - rewrite Ea. exact V1. }
             { intros e [He Nb]. split; [exact He|]. intros (L & Hin). apply Nb. split; [exact L|]. apply InL; auto; lia. }
             intros [[[s0 cfb] idx3] lv3] (f3 & I3 & O3 & P3 & GSb & V1b & V2b & E3 & T3 & L3).
             assert (Gb : gok cfb) by (eapply gok_same; eassumption).
             eapply rokE_seq; [eapply put_hmax_ok; [exact Gb|exact Hdir]|].
             intros cfc (GSc & Ec & Vc). assert (Gc : gok cfc) by (eapply gok_same; eassumption).
             eapply rokE_seq; [eapply put_hmin_ok; [exact Gc|exact Hdir]|].
             intros cfd (GSd & Ed & Vd). assert (Gd : gok cfd) by (eapply gok_same; eassumption).
             apply rokE_bind. eapply rokE_conseq.
             { apply (IH cfd idx3 n f3 (off + size0) size1 (dir + 1) (afupd H1 dir m) H2 lv3); auto; try lia.
               - split; [exact I3|]. split; [destruct I2'; lia|]. intros i Hi. rewrite O3 by lia. apply I2'. lia.
               - apply Vd. rewrite Ec. exact V1b.
               - rewrite Ed. eapply aval_ext; [apply Vc; exact V2b|]. intros k _. apply afupd_restore. }
             { intros e [He Nb]. split; [exact He|]. intros (L & Hin). apply Nb. split; [exact L|].
               eapply inside_ext; [apply (InR (off + size0) size1); auto; lia|].
               intros i Hi. rewrite O3 by lia. reflexivity. }
             intros [[[s1 cfe] idx4] lv4] (f4 & I4 & O4 & P4 & GSe & V1e & V2e & E4 & T4 & L4).
             assert (Ge : gok cfe) by (eapply gok_same; eassumption).
             eapply rokE_seq; [eapply put_hmin_ok; [exact Ge|exact Hdir]|].
             intros cff (GSf & Ef & Vf). cbn.
             exists f4. split; [exact I4|].
             split; [intros i Hi; rewrite O4, O3, O2 by lia; reflexivity|].
             split.
             { eapply Permutation_trans; [exact P2|]. rewrite <- Es, !slice_app. apply Permutation_app.
               - eapply Permutation_trans; [exact P3|]. erewrite (slice_ext f3 f4); [apply Permutation_refl|].
                 intros i Hi. rewrite O4 by lia. reflexivity.
               - erewrite (slice_ext f2' f3); [exact P4|]. intros i Hi. rewrite O3 by lia. reflexivity. }
             split.
             { eapply geo_same_trans; [exact GSa|]. eapply geo_same_trans; [exact GSb|].
               eapply geo_same_trans; [exact GSc|]. eapply geo_same_trans; [exact GSd|].
               eapply geo_same_trans; eassumption. }
             split; [eapply aval_ext; [apply Vf; exact V1e|]; intros k _; apply afupd_restore|].
             split; [rewrite Ef; exact V2e|].
             rewrite app_nil_r, app_length. split; [lia|].
             split; [rewrite <- Es; apply tiles_app; assumption|].
             intros l Hl. apply in_app_iff in Hl as [Hl|Hl].
             ++ eapply help_leaf_weaken; [apply L3; exact Hl| | |].
                ** intros i Hi. destruct (tiles_in _ _ _ _ T3 Hl). rewrite O4 by lia. reflexivity.
                ** intros L Hin. apply InL; auto; lia.
                ** intros L _ j Hj. apply (width_l L).
             ++ eapply help_leaf_weaken; [apply L4; exact Hl| | |].
                ** auto.
                ** intros L Hin. eapply inside_ext; [apply (InR (off + size0) size1); auto; lia|].
                   intros i Hi. rewrite O3 by lia. reflexivity.
                ** intros L _ j Hj. apply (width_r L).
          -- eapply rokE_seq; [eapply put_hmax_ok; [exact G|exact Hdir]|].
             intros cfa (GSa & Ea & Va). assert (Ga : gok cfa) by (eapply gok_same; eassumption).
             apply rokE_bind. eapply rokE_conseq.
             { apply (IH cfa idx2 n f2' off size (dir + 1) H1 (afupd H2 dir m) lv); auto; try lia.
               rewrite Ea. exact V1. }
             { intros e [He Nb]. split; [exact He|]. intros (L & Hin). apply Nb. split; [exact L|]. apply InL; auto; lia. }
             intros [[[s0 cfb] idx3] lv3] (f3 & I3 & O3 & P3 & GSb & V1b & V2b & E3 & T3 & L3).
             assert (Gb : gok cfb) by (eapply gok_same; eassumption).
             eapply rokE_seq; [eapply put_hmax_ok; [exact Gb|exact Hdir]|].
             intros cfc (GSc & Ec & Vc). cbn. rewrite app_nil_r.
             exists f3. split; [exact I3|].
             split; [intros i Hi; rewrite O3, O2 by lia; reflexivity|].
             split; [eapply Permutation_trans; eassumption|].
             split; [eapply geo_same_trans; [exact GSa|]; eapply geo_same_trans; eassumption|].
             split; [rewrite Ec; exact V1b|].
             split; [eapply aval_ext; [apply Vc; exact V2b|]; intros k _; apply afupd_restore|].
             split; [exact E3|]. split; [exact T3|].
             intros l Hl. eapply help_leaf_weaken; [apply L3; exact Hl| | |].
             ++ auto.
             ++ intros L Hin. apply InL; auto; lia.
             ++ intros L _ j Hj. apply (width_l L).
        * destruct (Nat.ltb_spec 0 size1); [|lia]. cbn [rassert rbind].
          eapply rokE_seq; [eapply put_hmin_ok; [exact G|exact Hdir]|].
          intros cfa (GSa & Ea & Va). assert (Ga : gok cfa) by (eapply gok_same; eassumption).
          apply rokE_bind. eapply rokE_conseq.
          { apply (IH cfa idx2 n f2' off size (dir + 1) (afupd H1 dir m) H2 lv); auto; try lia.
            rewrite Ea. exact V2. }
          { intros e [He Nb]. split; [exact He|]. intros (L & Hin). apply Nb. split; [exact L|]. apply InR; auto; lia. }
          intros [[[s0 cfb] idx3] lv3] (f3 & I3 & O3 & P3 & GSb & V1b & V2b & E3 & T3 & L3).
          assert (Gb : gok cfb) by (eapply gok_same; eassumption).
          eapply rokE_seq; [eapply put_hmin_ok; [exact Gb|exact Hdir]|].
          intros cfc (GSc & Ec & Vc). cbn. rewrite app_nil_r.
          exists f3. split; [exact I3|].
          split; [intros i Hi; rewrite O3, O2 by lia; reflexivity|].
          split; [eapply Permutation_trans; eassumption|].
          split; [eapply geo_same_trans; [exact GSa|]; eapply geo_same_trans; eassumption|].
          split; [eapply aval_ext; [apply Vc; exact V1b|]; intros k _; apply afupd_restore|].
          split; [rewrite Ec; exact V2b|].
          split; [exact E3|]. split; [exact T3|].
          intros l Hl. eapply help_leaf_weaken; [apply L3; exact Hl| | |].
          ++ auto.
          ++ intros L Hin. apply InR; auto; lia.
          ++ intros L _ j Hj. apply (width_r L).
      + destruct (feqb _ f0) eqn:Ea0.
        * cbn [rassert rbind]. apply rokE_bind. eapply rokE_conseq.
          { apply (IH cf idx n f off size (dir + 1) H1 H2 lv); auto; lia. }
          { intros e He. exact He. }
          intros [[[s0 cfb] idx3] lv3] (f3 & I3 & O3 & P3 & GSb & V1b & V2b & E3 & T3 & L3).
          cbn. rewrite app_nil_r. exists f3. do 8 (split; [assumption|]).
          intros l Hl. eapply help_leaf_weaken; [apply L3; exact Hl| | |]; auto.
          intros L Hin j Hj. destruct (Nat.eqb_spec j dir) as [->|]; [|reflexivity].
          assert (width H1 H2 dir = f0) as -> by (apply (fl_eqb K (ol_field K L)); exact Ea0).
          symmetry. apply (half_zero L).
        * cbn. split; [reflexivity|]. intros (L & Hin).
          assert (fsub (H2 dir) (H1 dir) = f0) as E.
          { apply (fle_antisym L); [exact Ha|]. apply (proj1 (fle_sub L _ _)).
            eapply (inside_le L); eassumption. }
          apply (fl_eqb K (ol_field K L)) in E. congruence.
  Qed.

  (** ** leaves_into_sons *)
  Definition leaf_step (build : cgeom K -> arr nat -> nat -> nat -> res (cluster K * cgeom K * arr nat))
    (s : cluster K) (st : cgeom K * arr nat * arr (cluster K) * nat) :=
    let '(cf, idx, son, lv) := st in
    let* (h1, h2) := rfor 0 (g_dim cf) (fun i '(h1, h2) =>
      let* v1 := aget (c_bmin s) i in
      let* h1 := aset h1 i v1 in
      let* v2 := aget (c_bmax s) i in
      let* h2 := aset h2 i v2 in
      Ok (h1, h2)) (g_hmin cf, g_hmax cf) in
    let* (t, cf, idx) := build (set_h cf h1 h2) idx (c_off s) (c_size s) in
    let* son := aset son lv t in
    Ok (cf, idx, son, lv + 1).

  Lemma rfold_app {A S} (body : A -> S -> res S) l1 l2 s :
    rfold body (l1 ++ l2) s = rbind (rfold body l1 s) (rfold body l2).
  Proof.
    revert s. induction l1 as [|x l1 IH]; intros s; cbn; [reflexivity|].
    destruct (body x s); cbn; [apply IH|reflexivity].
  Qed.

  Lemma lis_fold build s : forall st, leaves_into_sons build s st = rfold (leaf_step build) (leaves s) st.
  Proof.
    induction s as [size off sons dim b1 b2 ds typ IH] using cluster_rect'. intros st.
    destruct sons as [|s0 sons].
    - cbn. unfold leaf_step. destruct st as [[[cf idx] son] lv]. cbn.
      destruct (rfor _ _ _ _) as [[h1 h2]|e]; cbn; [|reflexivity].
      destruct (build _ _ _ _) as [[[t cf'] idx']|e]; cbn; [|reflexivity].
      destruct (aset _ _ _); reflexivity.
    - change (leaves (Cl size off (s0 :: sons) dim b1 b2 ds typ)) with (flat_map leaves (s0 :: sons)).
      change (leaves_into_sons build (Cl size off (s0 :: sons) dim b1 b2 ds typ) st)
        with (rfold (fun s1 st => leaves_into_sons build s1 st) (s0 :: sons) st).
      revert st. induction IH as [|s l Hs Hl IHl]; intros st; [reflexivity|].
      cbn [flat_map rfold]. rewrite rfold_app, Hs.
      destruct (rfold (leaf_step build) (leaves s) st); cbn; [apply IHl|reflexivity].
  Qed.

  (** Recursive calls. *)
  Definition build_spec (build : cgeom K -> arr nat -> nat -> nat -> res (cluster K * cgeom K * arr nat))
    (bad : (nat -> nat) -> nat -> nat -> (nat -> K) -> (nat -> K) -> err -> Prop) : Prop :=
    forall cf idx n f off size H1 H2, gok cf -> iok idx n f off size -> 0 < size ->
      aval (g_hmin cf) d H1 -> aval (g_hmax cf) d H2 ->
      rokE (bad f off size H1 H2) (build cf idx off size) (built X Smin Smax d clf false cf n f off size).

  Lemma aset_app {A} (done : list A) (n : nat) t :
    aset (map Some done ++ repeat None (S n)) (length done) t = Ok (map Some (done ++ [t]) ++ repeat None n).
  Proof.
    unfold aset. rewrite app_length, map_length, repeat_length.
    destruct (Nat.ltb_spec (length done) (length done + S n)); [|lia]. f_equal.
    induction done as [|x l IH]; cbn; [reflexivity|]. f_equal. apply IH. cbn in *. lia.
  Qed.

  Lemma rok_leaves build bad (E : err -> Prop) : build_spec build bad ->
    forall ls cf idx n f off size done,
    gok cf -> iok idx n f off size -> tiles off size ls -> (forall s, In s ls -> 0 < c_size s) ->
    (forall s, In s ls -> exists B1 B2, aval (c_bmin s) d B1 /\ aval (c_bmax s) d B2 /\
       forall g, (forall i, c_off s <= i < c_off s + c_size s -> g i = f i) ->
         forall e, bad g (c_off s) (c_size s) B1 B2 e -> E e) ->
    rokE E (rfold (leaf_step build) ls (cf, idx, map Some done ++ repeat None (length ls), length done))
      (fun '(cf', idx', son', _) => exists f' ts, aval idx' n f' /\
         (forall i, ~ (off <= i < off + size) -> f' i = f i) /\
         Permutation (slice f off size) (slice f' off size) /\ geo_same cf cf' /\
         son' = map Some (done ++ ts) /\ tiles off size ts /\ length ts = length ls /\
         forall s s', In s ts -> In s' (nodes s) -> cnode X Smin Smax d clf false f' s').
  Proof.
    intros BS. induction ls as [|l ls IH]; intros cf idx n f off size done G I T Hp HB.
    - cbn in T. subst size. cbn. exists f, []. split; [apply I|]. split; [auto|]. split; [apply Permutation_refl|].
      split; [eapply geo_same_refl; apply G|]. rewrite !app_nil_r.
      repeat split; auto; contradiction.
    - cbn [tiles] in T. destruct T as (Eo & Hsz & T). cbn [rfold length].
      destruct (HB l (or_introl eq_refl)) as (B1 & B2 & V1 & V2 & HE).
      apply rokE_bind. unfold leaf_step at 1. pose proof G as (GV & D & M). rewrite D.
      eapply rokE_seq.
      { eapply (rok_for (fun j '(h1, h2) => aprt h1 d (fun k => k < j) B1 /\ aprt h2 d (fun k => k < j) B2))
          with (Q := fun '(h1, h2) => aval h1 d B1 /\ aval h2 d B2).
        - split; (split; [|intros; lia]); [rewrite (gv_hmin _ _ _ _ _ GV)|rewrite (gv_hmax _ _ _ _ _ GV)]; exact D.
        - intros j [h1 h2] Hj [A1 A2]. rewrite (aval_get _ _ _ _ V1) by lia. cbn [rbind].
          apply rok_bind. eapply rok_aset_prt; [exact A1|lia|]. intros h1' A1'.
          rewrite (aval_get _ _ _ _ V2) by lia. cbn [rbind].
          apply rok_bind. eapply rok_aset_prt; [exact A2|lia|]. intros h2' A2'. cbn.
          split; (eapply aprt_ext; [eassumption| |]; cbn; unfold afupd; intros k Hk Hk2; [lia|]; bsplit; subst; reflexivity).
        - intros [h1 h2] [A1 A2]. split; (eapply aprt_aval; [|eassumption]; cbn; lia). }
      intros [h1 h2] [A1 A2].
      assert (GS : geo_same cf (set_h cf h1 h2)).
      { apply geo_same_set; [rewrite (proj1 A1)|rewrite (proj1 A2)]; auto. }
      assert (Gh : gok (set_h cf h1 h2)) by (eapply gok_same; eassumption).
      apply rokE_bind. eapply rokE_conseq.
      { apply (BS (set_h cf h1 h2) idx n f (c_off l) (c_size l) B1 B2); auto.
        - eapply iok_sub; [exact I|lia|lia].
        - apply Hp. left. reflexivity. }
      { intros e He. apply (HE f); auto. }
      intros [[t cf1] idx1] (f1 & I1 & O1 & P1 & GS1 & T1).
      rewrite aset_app. cbn [rbind rokE].
      assert (G1 : gok cf1) by (eapply gok_same; eassumption).
      assert (Ex : forall i, off + c_size l <= i < off + size -> f1 i = f i) by (intros; apply O1; lia).
      replace (length done + 1) with (length (done ++ [t])) by (rewrite app_length; reflexivity).
      eapply rokE_conseq.
      { apply (IH cf1 idx1 n f1 (off + c_size l) (size - c_size l) (done ++ [t])); auto.
        - destruct I as (Ia & Ib & Ic). split; [exact I1|]. split; [lia|]. intros i Hi. rewrite Ex by lia. apply Ic. lia.
        - intros s Hs. apply Hp. right. exact Hs.
        - intros s Hs. destruct (HB s (or_intror Hs)) as (C1 & C2 & U1 & U2 & HE2).
          exists C1, C2. split; [exact U1|]. split; [exact U2|]. intros g Hg e He. apply (HE2 g); [|exact He].
          intros i Hi. rewrite Hg by exact Hi. destruct (tiles_in _ _ _ _ T Hs). apply Ex. lia. }
      { auto. }
      intros [[[cf2 idx2] son2] lv2] (f2' & ts & I2 & O2 & P2 & GS2 & Es & T2 & El & C2).
      destruct T1 as (To & Ts & Tc).
      exists f2', (t :: ts). split; [exact I2|].
      split; [intros i Hi; rewrite O2, O1 by lia; reflexivity|].
      split.
      { replace size with (c_size l + (size - c_size l)) by lia. rewrite !slice_app. apply Permutation_app.
        - rewrite <- Eo. eapply Permutation_trans; [exact P1|]. erewrite (slice_ext f1 f2'); [apply Permutation_refl|].
          intros i Hi. rewrite O2 by lia. reflexivity.
        - erewrite (slice_ext f f1); [exact P2|]. intros i Hi. rewrite Ex by lia. reflexivity. }
      split; [eapply geo_same_trans; [exact GS|]; eapply geo_same_trans; eassumption|].
      split; [rewrite Es, <- app_assoc; reflexivity|].
      split; [cbn; rewrite To, Ts; auto|].
      split; [cbn; congruence|].
      intros s s' [<-|Hs] Hs'; [|apply (C2 s); assumption].
      assert (tok X Smin Smax d clf false f2' (c_off l) (c_size l) t) as (_ & _ & Q).
      { eapply tok_ext; [split; [exact To|split; [exact Ts|exact Tc]]|]. intros i Hi. rewrite O2 by lia. reflexivity. }
      apply Q. exact Hs'.
  Qed.

  (** ** Simultaneous subdivision *)
  Definition good_ss (n : nat) (f : nat -> nat) (off size : nat) (H1 H2 : nat -> K) : Prop :=
    ofield_laws K /\ spread X d clf f off size /\ inside f off size H1 H2 /\
    exists k, k < n /\ forall i i' j, off <= i < off + size -> off <= i' < off + size -> j < d ->
      flt (X (f i) j) (X (f i') j) = true ->
      flt (width H1 H2 j) (fmul (pow2 k) (fsub (X (f i') j) (X (f i) j))) = true.

  Definition bad_ss (n : nat) (f : nat -> nat) (off size : nat) (H1 H2 : nat -> K) (e : err) : Prop :=
    (e = EAssert \/ e = EFuel) /\ ~ good_ss n f off size H1 H2.

  Lemma aall_some {A} (l : list A) : aall (map Some l) = Ok l.
  Proof. unfold aall. induction l as [|x l IH]; cbn; [reflexivity|]. rewrite IH. reflexivity. Qed.

  Lemma leaves_nonempty (s : cluster K) : leaves s <> [].
  Proof.
    induction s as [size off sons dim b1 b2 ds typ IH] using cluster_rect'.
    destruct sons as [|s0 sons]; cbn; [discriminate|]. inversion IH; subst.
    intros E. apply app_eq_nil in E as [E _]. contradiction.
  Qed.

  Lemma good_leaf n f f' off size H1 H2 o s B1 B2 : good_ss (S n) f off size H1 H2 -> clf < size ->
    Permutation (slice f off size) (slice f' off size) ->
    off <= o -> o + s <= off + size ->
    inside f' o s B1 B2 -> (forall j, j < d -> width B1 B2 j = fdiv (width H1 H2 j) f2) ->
    good_ss n f' o s B1 B2.
  Proof.
    intros (L & Sp & Hin & k & Hk & Hg) Hc P Ho Hos Hb Hw.
    pose proof (ofield_order L) as O.
    assert (Sp' : spread X d clf f' o s).
    { eapply spread_sub; [eapply spread_perm; eassumption|exact Ho|exact Hos]. }
    split; [exact L|]. split; [exact Sp'|]. split; [exact Hb|].
    destruct k as [|k].
    - exfalso. destruct (spread_differ X d clf L f off size Sp Hc) as (i & j & Hi & Hj & Ne).
      assert (Q : forall a b, off <= a < off + size -> off <= b < off + size ->
                 flt (X (f a) j) (X (f b) j) = true -> False).
      { intros a b Ha' Hb' Hlt. pose proof (Hg a b j Ha' Hb' Hj Hlt) as H.
        rewrite (pow2_0 L) in H.
        destruct (Hin a j Ha' Hj) as [A1 _], (Hin b j Hb' Hj) as [_ A2].
        pose proof (fle_sub_sub L _ _ _ _ A2 A1) as C. unfold fle, width in *. congruence. }
      destruct (ol_total K L _ _ Ne) as [C|C]; [apply (Q off i)|apply (Q i off)]; auto; lia.
    - exists k. split; [lia|]. intros i i' j Hi Hi' Hj Hlt. rewrite Hw by exact Hj. apply (pow2_half L).
      destruct (perm_in_slice f' f off size i (Permutation_sym P) ltac:(lia)) as (a & Ha & Ea).
      destruct (perm_in_slice f' f off size i' (Permutation_sym P) ltac:(lia)) as (b & Hb' & Eb).
      rewrite <- Ea, <- Eb in *. apply Hg; assumption.
  Qed.

  Lemma rok_simsub n : build_spec (build_simsub n clf) (bad_ss n).
  Proof.
    induction n as [|n IH]; intros cf idx len f off size H1 H2 G I Hs V1 V2; cbn [build_simsub].
    { split; [right; reflexivity|]. intros (_ & _ & _ & k & C & _). lia. }
    destruct (Nat.ltb_spec 0 size); [|lia]. cbn [rassert rbind].
    apply finish. destruct (Nat.ltb_spec clf size) as [Hc|Hc].
    2:{ eapply leaf_pre; try eassumption. left. exact Hc. }
    assert (Edim : g_dim cf = d) by apply G. rewrite Edim.
    apply rokE_bind. eapply rokE_conseq.
    { apply (rok_help d cf idx len f off size 0 H1 H2 0); auto. }
    { intros e [-> Nb]. split; [left; reflexivity|]. intros (L & _ & Hin & _). apply Nb. split; assumption. }
    intros [[[s cf1] idx1] lv] (f1 & I1 & O1 & P1 & GS1 & W1 & W2 & E1 & T1 & L1).
    assert (G1 : gok cf1) by (eapply gok_same; eassumption).
    assert (I1' : iok idx1 len f1 off size) by (eapply iok_perm; eassumption).
    apply rokE_bind. rewrite lis_fold. cbn in E1. subst lv.
    eapply rokE_conseq.
    { apply (rok_leaves (build_simsub n clf) (bad_ss n) (bad_ss (S n) f off size H1 H2) IH
               (leaves s) cf1 idx1 len f1 off size []); auto.
      - intros l Hl. apply L1. exact Hl.
      - intros l Hl. destruct (L1 l Hl) as (Pl & B1 & B2 & U1 & U2 & HL). exists B1, B2.
        split; [exact U1|]. split; [exact U2|]. intros g Hg e [He Nb]. split; [exact He|].
        intros Good. apply Nb. destruct (HL (proj1 Good) (proj1 (proj2 (proj2 Good)))) as [Q1 Q2].
        destruct (tiles_in _ _ _ _ T1 Hl).
        assert (good_ss n f1 (c_off l) (c_size l) B1 B2) as (a & b & c & k & Hk & e').
        { eapply good_leaf; eassumption. }
        split; [exact a|]. split; [eapply spread_ext; [exact b|]; intros; symmetry; auto|].
        split; [eapply inside_ext; [exact c|]; intros; symmetry; auto|].
        exists k. split; [exact Hk|]. intros i i' j Hi Hi' Hj. rewrite !Hg by assumption. apply e'; assumption. }
    { auto. }
    intros [[[cf2 idx2] son2] lv2] (f2' & ts & I2 & O2 & P2 & GS2 & Es & T2 & El & C2).
    rewrite Es. cbn [app]. rewrite aall_some. cbn [rbind].
    assert (G2 : gok cf2) by (eapply gok_same; eassumption).
    assert (g_dim cf2 = d) as -> by apply G2.
    apply rokE_bind. apply rok_rokE. eapply rok_conseq; [eapply rok_join with (f := f2')|].
    - intros ->. apply (leaves_nonempty s). apply length_zero_iff_nil. rewrite <- El. reflexivity.
    - exact Hs.
    - exact T2.
    - exact C2.
    - intros t T. cbn. exists f2'. split; [exact I2|]. split; [intros i Hi; rewrite O2, O1 by lia; reflexivity|].
      split; [eapply Permutation_trans; eassumption|]. split; [eapply geo_same_trans; eassumption|exact T].
  Qed.

  (** ** Principal component analysis *)
  Definition eig_ok (eig : nat -> arr K -> arr K) : Prop :=
    forall dim c, exists v, aval (eig dim c) dim v.

  Lemma rok_pca_shift cf x Fx k : gok cf -> aval x d Fx -> k < N ->
    rok (pca_shift cf x k) (fun y => aval y d (fun j => fsub (X k j) (Fx j))).
  Proof.
    intros (G & D & M) V Hk. unfold pca_shift. rewrite D.
    eapply (rok_for (fun j y => aprt y d (fun i => i < j) (fun j => fsub (X k j) (Fx j)))).
    - split; [apply repeat_length|intros; lia].
    - intros j y Hj A. rewrite (row_get _ _ _ _ _ _ (gv_x _ _ _ _ _ G)) by lia. cbn [rbind].
      rewrite (aval_get _ _ _ _ V) by lia. cbn [rbind].
      eapply rok_aset_prt; [exact A|lia|]. intros y' A'.
      eapply aprt_ext; [eassumption| |]; cbn; unfold afupd; intros i Hi Hi2; [lia|]; bsplit; subst; reflexivity.
    - intros y A. eapply aprt_aval; [|exact A]. cbn. lia.
  Qed.

  Lemma rok_pca_test cf x Fx v Fv : gok cf -> aval x d Fx -> aval v d Fv ->
    forall k, k < N -> pca_test cf x v k = Ok (fleb f0 (sum d (fun j => fmul (fsub (X k j) (Fx j)) (Fv j)))).
  Proof.
    intros G V Vv k Hk. unfold pca_test.
    destruct (rok_inv _ _ (rok_pca_shift cf x Fx k G V Hk)) as (y & -> & Hy). cbn [rbind].
    assert (g_dim cf = d) as -> by apply G.
    assert (R : rok (rfor 0 d (fun (j : nat) (w : K) => let* yj := aget y j in let* vj := aget v j in
                Ok (fadd w (fmul yj vj))) f0)
              (fun w => w = sum d (fun j => fmul (fsub (X k j) (Fx j)) (Fv j)))).
    { eapply (rok_for (fun j w => w = sum j (fun j => fmul (fsub (X k j) (Fx j)) (Fv j)))).
      - reflexivity.
      - intros j w Hj ->. rewrite (aval_get _ _ _ _ Hy) by lia. cbn [rbind].
        rewrite (aval_get _ _ _ _ Vv) by lia. cbn. reflexivity.
      - auto. }
    apply rok_inv in R as (w & -> & ->). reflexivity.
  Qed.

  Lemma rok_pca_center cf idx n f off size : gok cf -> iok idx n f off size ->
    rok (pca_center cf idx off size) (fun x => exists Fx, aval x d Fx).
  Proof.
    intros (G & D & M) (I & Hn & HN). unfold pca_center. rewrite D. apply rok_bind.
    eapply (rok_for (fun _ _ => True)); [exact Logic.I| |].
    { intros i w Hi _. rewrite (aval_get _ _ _ _ I) by lia. cbn [rbind].
      rewrite (aval_get _ _ _ _ (gv_w _ _ _ _ _ G)) by (rewrite M; apply HN; lia). cbn. exact Logic.I. }
    intros w _. apply rok_bind.
    eapply (rok_for (fun j x => aprt x d (fun i => i < j) (fun _ => f0))).
    { split; [apply repeat_length|intros; lia]. }
    { intros j x Hj A. eapply rok_aset_prt; [exact A|lia|]. intros y' A'.
      eapply aprt_ext; [eassumption| |]; cbn; unfold afupd; intros i Hi Hi2; [lia|]; bsplit; subst; reflexivity. }
    intros x A. assert (A' : exists Fx, aval x d Fx).
    { eexists. eapply aprt_aval; [|exact A]. cbn. lia. }
    clear A. apply rok_bind.
    eapply (rok_for (fun _ x => exists Fx, aval x d Fx)); [exact A'| |].
    { clear x A'. intros i x Hi A. eapply (rok_for (fun _ x => exists Fx, aval x d Fx)); [exact A| |auto].
      clear x A. intros j x Hj (Fx & A). rewrite (aval_get _ _ _ _ I) by lia. cbn [rbind].
      rewrite (aval_get _ _ _ _ (gv_w _ _ _ _ _ G)) by (rewrite M; apply HN; lia). cbn [rbind].
      rewrite (row_get _ _ _ _ _ _ (gv_x _ _ _ _ _ G)) by (try lia; rewrite M; apply HN; lia). cbn [rbind].
      rewrite (aval_get _ _ _ _ A) by lia. cbn [rbind].
      eapply rok_aset; [exact A|lia|]. intros x' Ax. eexists. exact Ax. }
    clear x A'. intros x A. eapply (rok_for (fun _ x => exists Fx, aval x d Fx)); [exact A| |auto].
    clear x A. intros j x Hj (Fx & A). rewrite (aval_get _ _ _ _ A) by lia. cbn [rbind].
    eapply rok_aset; [exact A|lia|]. intros x' Ax. eexists. exact Ax.
  Qed.

  Lemma rok_pca_cov cf x Fx idx n f off size : gok cf -> iok idx n f off size -> aval x d Fx ->
    rok (pca_cov cf x idx off size) (fun _ => True).
  Proof.
    intros G I V. pose proof G as (GV & D & M). destruct I as (Ia & Hn & HN). unfold pca_cov. rewrite D.
    eapply (rok_for (fun _ c => exists Fc, aval c (d * d) Fc)).
    - exists (fun i => nth i (repeat f0 (d * d)) f0).
      rewrite <- (repeat_length (@f0 K) (d * d)) at 2. apply aof_val.
    - intros i c Hi A. rewrite (aval_get _ _ _ _ Ia) by lia. cbn [rbind].
      destruct (rok_inv _ _ (rok_pca_shift cf x Fx (f (off + i)) G V (HN (off + i) ltac:(lia)))) as (y & -> & Hy). cbn [rbind].
      eapply (rok_for (fun _ c => exists Fc, aval c (d * d) Fc)); [exact A| |auto].
      clear c A. intros j c Hj A.
      eapply (rok_for (fun _ c => exists Fc, aval c (d * d) Fc)); [exact A| |auto].
      clear c A. intros l c Hl (Fc & A).
      rewrite (aval_get _ _ _ _ (gv_w _ _ _ _ _ GV)) by (rewrite M; apply HN; lia). cbn [rbind].
      rewrite (aval_get _ _ _ _ Hy) by lia. cbn [rbind].
      rewrite (aval_get _ _ _ _ Hy) by lia. cbn [rbind].
      assert (j + l * d < d * d) by nia.
      rewrite (aval_get _ _ _ _ A) by lia. cbn [rbind].
      eapply rok_aset; [exact A|lia|]. intros x' Ax. eexists. exact Ax.
    - auto.
  Qed.

  Hypothesis Hd : 0 < d.
  Lemma rok_pca eig n : eig_ok eig -> forall cf idx len f off size,
    gok cf -> iok idx len f off size -> 0 < size ->
    rokE (fun e => e = EFuel) (build_pca eig n cf idx off size clf) (built X Smin Smax d clf false cf len f off size).
  Proof.
    intros Heig. induction n as [|n IH]; intros cf idx len f off size G I Hs; cbn [build_pca].
    { reflexivity. }
    destruct (Nat.ltb_spec 0 size); [|lia]. cbn [rassert rbind].
    apply finish. destruct (Nat.ltb_spec clf size) as [Hc|Hc].
    2:{ eapply leaf_pre; try eassumption. left. exact Hc. }
    eapply rokE_seq; [eapply rok_pca_center; eassumption|]. intros x (Fx & Vx).
    eapply rokE_seq; [eapply rok_pca_cov; eassumption|]. intros c _.
    destruct (Heig (g_dim cf) c) as (Fv & Vv).
    assert (Edim : g_dim cf = d) by apply G. rewrite Edim in *.
    eapply rokE_seq; [eapply (rok_split N); [exact I|eapply rok_pca_test; eassumption]|].
    intros [[idx2 size0] size1] (f2 & I2 & Es & O2 & P2 & _ & _).
    assert (I2' : iok idx2 len f2 off size) by (eapply iok_perm; eassumption).
    rewrite Es, Nat.eqb_refl. cbn [rassert rbind].
    destruct (Nat.ltb_spec 0 size0) as [H0|H0].
    + destruct (Nat.ltb_spec 0 size1) as [H1|H1].
      * apply rokE_bind. eapply rokE_conseq; [apply IH; [exact G|eapply iok_sub; [exact I2'|lia|lia]|exact H0]|auto|].
        intros [[t0 cf3] idx3] (f3 & I3 & O3 & P3 & GS3 & T3).
        assert (G3 : gok cf3) by (eapply gok_same; eassumption).
        assert (I3' : iok idx3 len f3 (off + size0) size1).
        { split; [exact I3|]. split; [destruct I2'; lia|]. intros i Hi. rewrite O3 by lia. apply I2'. lia. }
        apply rokE_bind. eapply rokE_conseq; [apply IH; [exact G3|exact I3'|exact H1]|auto|].
        intros [[t1 cf4] idx4] (f4 & I4 & O4 & P4 & GS4 & T4).
        rewrite <- Es in *.
        eapply join2 with (f2 := f3) (f3 := f4); try eassumption.
        -- intros i Hi. rewrite O4, O3, O2 by lia. reflexivity.
        -- eapply Permutation_trans; [exact P2|]. rewrite !slice_app. apply Permutation_app.
           ++ eapply Permutation_trans; [exact P3|]. erewrite (slice_ext f3 f4); [apply Permutation_refl|].
              intros i Hi. rewrite O4 by lia. reflexivity.
           ++ erewrite (slice_ext f2 f3); [exact P4|]. intros i Hi. rewrite O3 by lia. reflexivity.
        -- eapply geo_same_trans; eassumption.
        -- intros i Hi. rewrite O4 by lia. reflexivity.
      * replace size0 with size by lia.
        apply rokE_bind. eapply rokE_conseq; [apply IH; [exact G|exact I2'|exact Hs]|auto|].
        intros [[t0 cf3] idx3] (f3 & I3 & O3 & P3 & GS3 & T3).
        eapply join1 with (f' := f3); try eassumption.
        -- intros i Hi. rewrite O3, O2 by lia. reflexivity.
        -- eapply Permutation_trans; eassumption.
    + destruct (Nat.ltb_spec 0 size1); [|lia]. cbn [rassert rbind]. replace size1 with size by lia.
      apply rokE_bind. eapply rokE_conseq; [apply IH; [exact G|exact I2'|exact Hs]|auto|].
      intros [[t0 cf3] idx3] (f3 & I3 & O3 & P3 & GS3 & T3).
      eapply join1 with (f' := f3); try eassumption.
      -- intros i Hi. rewrite O3, O2 by lia. reflexivity.
      -- eapply Permutation_trans; eassumption.
  Qed.
End Build.
