(** * Proofs about the clustering strategies *)
From Coq Require Import Arith Lia List Bool Permutation.
From Verif Require Import Fld Ord Prog Arr Loop Cluster ClusterSpec ClusterP.
Import ListNotations.

Lemma perm_in_slice {A} (f g : nat -> A) off n i : Permutation (slice f off n) (slice g off n) ->
  off <= i < off + n -> exists i', off <= i' < off + n /\ g i' = f i.
Proof.
  intros P Hi. apply in_slice. eapply Permutation_in; [exact P|]. apply in_slice. exists i. auto.
Qed.

Lemma perm_all {A} (f g : nat -> A) off n (P : A -> Prop) : Permutation (slice f off n) (slice g off n) ->
  (forall i, off <= i < off + n -> P (f i)) -> forall i, off <= i < off + n -> P (g i).
Proof.
  intros Q H i Hi. destruct (perm_in_slice g f off n i (Permutation_sym Q) Hi) as (i' & Hi' & E).
  rewrite <- E. auto.
Qed.

Section Build.
  Context {K : ofops}.
  Variables (X Smin Smax : nat -> nat -> K) (W : nat -> K) (N d clf : nat).
  Notation gok := (gok X Smin Smax W N d).
  Notation iok := (iok N).

  Lemma iok_perm idx idx' n f f' off size : iok idx n f off size -> aval idx' n f' ->
    Permutation (slice f off size) (slice f' off size) -> iok idx' n f' off size.
  Proof.
    intros (A & B & C) V P. split; [exact V|]. split; [exact B|]. exact (perm_all f f' off size (fun k => k < N) P C).
  Qed.

  Lemma iok_sub idx n f off size off' size' : iok idx n f off size -> off <= off' -> off' + size' <= off + size ->
    iok idx n f off' size'.
  Proof. intros (A & B & C) H1 H2. split; [exact A|]. split; [lia|]. intros i Hi. apply C. lia. Qed.

  (** Result of a construction. *)
  Definition built (ad : bool) (cf : cgeom K) (n : nat) (f : nat -> nat) (off size : nat)
    (r : cluster K * cgeom K * arr nat) : Prop :=
    let '(t, cf', idx') := r in
    exists f', aval idx' n f' /\ (forall i, ~ (off <= i < off + size) -> f' i = f i) /\
      Permutation (slice f off size) (slice f' off size) /\ geo_same cf cf' /\
      tok X Smin Smax d clf ad f' off size t.

  (** The same before [desc] is set. *)
  Definition prebuilt (ad : bool) (cf : cgeom K) (n : nat) (f : nat -> nat) (off size : nat)
    (r : cluster K * cgeom K * arr nat) : Prop :=
    let '(t, cf', idx') := r in
    exists f', aval idx' n f' /\ (forall i, ~ (off <= i < off + size) -> f' i = f i) /\
      Permutation (slice f off size) (slice f' off size) /\ geo_same cf cf' /\
      pretok X Smin Smax d clf ad f' off size t.

  Lemma finish ad E cf n f off size r : rokE E r (prebuilt ad cf n f off size) ->
    rokE E (let* (t, cf, idx) := r in let* t := update_cluster t in Ok (t, cf, idx)) (built ad cf n f off size).
  Proof.
    intros H. apply rokE_bind. eapply rokE_conseq; [exact H|auto|].
    intros [[t cf'] idx'] (f' & V & O & P & G & T).
    apply rokE_bind. apply rok_rokE. eapply rok_conseq; [eapply rok_update_cluster; exact T|].
    intros t' T'. cbn. exists f'. auto.
  Qed.

  Lemma leaf_pre ad E cf idx n f off size : gok cf -> iok idx n f off size -> 0 < size ->
    leafok X d clf ad f off size ->
    rokE E (let* t := leaf_cluster cf idx off size in Ok (t, cf, idx)) (prebuilt ad cf n f off size).
  Proof.
    intros G I Hs Hl. apply rokE_bind. apply rok_rokE.
    eapply rok_conseq; [eapply rok_leaf_pre; eassumption|].
    intros t T. cbn. exists f. split; [apply I|]. split; [auto|]. split; [apply Permutation_refl|].
    split; [|exact T]. eapply geo_same_refl. apply G.
  Qed.

  Lemma join2 ad E (cf cf' : cgeom K) idx' n (f f2 f3 : nat -> nat) off size0 size1 t0 t1 :
    aval idx' n f3 -> 0 < size0 -> 0 < size1 ->
    (forall i, ~ (off <= i < off + (size0 + size1)) -> f3 i = f i) ->
    Permutation (slice f off (size0 + size1)) (slice f3 off (size0 + size1)) ->
    gok cf -> geo_same cf cf' ->
    tok X Smin Smax d clf ad f2 off size0 t0 -> (forall i, off <= i < off + size0 -> f2 i = f3 i) ->
    tok X Smin Smax d clf ad f3 (off + size0) size1 t1 ->
    rokE E (let* t := update_bbox (new_cluster (size0 + size1) off [t0; t1] (g_dim cf')) in Ok (t, cf', idx'))
      (prebuilt ad cf n f off (size0 + size1)).
  Proof.
    intros V H0 H1 O P G GS T0 E0 T1. apply rokE_bind. apply rok_rokE.
    assert (g_dim cf' = d) as -> by (eapply gok_same in GS; [|exact G]; apply GS).
    eapply tok_ext in T0; [|exact E0]. destruct T0 as (A0 & B0 & C0), T1 as (A1 & B1 & C1).
    eapply rok_conseq; [eapply rok_join with (f := f3)|].
    - discriminate.
    - lia.
    - cbn. rewrite A0, B0, A1, B1. lia.
    - intros s s' [<-|[<-|[]]] Hs; [apply C0|apply C1]; exact Hs.
    - intros t T. cbn. exists f3. auto.
  Qed.

  Lemma join1 ad E (cf cf' : cgeom K) idx' n (f f' : nat -> nat) off size t0 :
    aval idx' n f' -> 0 < size ->
    (forall i, ~ (off <= i < off + size) -> f' i = f i) ->
    Permutation (slice f off size) (slice f' off size) ->
    gok cf -> geo_same cf cf' ->
    tok X Smin Smax d clf ad f' off size t0 ->
    rokE E (let* t := update_bbox (new_cluster size off [t0] (g_dim cf')) in Ok (t, cf', idx'))
      (prebuilt ad cf n f off size).
  Proof.
    intros V H0 O P G GS T0. apply rokE_bind. apply rok_rokE.
    assert (g_dim cf' = d) as -> by (eapply gok_same in GS; [|exact G]; apply GS).
    destruct T0 as (A0 & B0 & C0).
    eapply rok_conseq; [eapply rok_join with (f := f')|].
    - discriminate.
    - lia.
    - cbn. rewrite A0, B0. lia.
    - intros s s' [<-|[]] Hs; apply C0; exact Hs.
    - intros t T. cbn. exists f'. auto.
  Qed.

  Lemma left_of_ok cf dir m : gok cf -> dir < d ->
    forall k, k < N -> left_of cf dir m k = Ok (flt (X k dir) m).
  Proof.
    intros (G & D & M) Hdir k Hk. unfold left_of.
    rewrite (row_get _ _ _ _ _ _ (gv_x _ _ _ _ _ G)) by lia. reflexivity.
  Qed.

  (** Number of indices in the range that share their point with index [p]. *)
  Definition same_b (p k : nat) : bool := forallb (fun j => feqb (X p j) (X k j)) (seq 0 d).
  Definition spread (f : nat -> nat) (off size : nat) : Prop :=
    forall p, length (filter (same_b p) (slice f off size)) <= clf.

  Lemma filter_perm {A} (b : A -> bool) l l' : Permutation l l' -> length (filter b l) = length (filter b l').
  Proof.
    induction 1; cbn; auto.
    - destruct (b x); cbn; auto.
    - destruct (b x), (b y); reflexivity.
    - congruence.
  Qed.

  Lemma spread_perm f f' off size : Permutation (slice f off size) (slice f' off size) ->
    spread f off size -> spread f' off size.
  Proof. intros P H p. rewrite <- (filter_perm _ _ _ P). apply H. Qed.

  Lemma spread_sub f off size off' size' : spread f off size -> off <= off' -> off' + size' <= off + size ->
    spread f off' size'.
  Proof.
    intros H H1 H2 p. specialize (H p).
    replace size with ((off' - off) + (size' + (off + size - off' - size'))) in H by lia.
    rewrite slice_app, slice_app, !filter_app, !app_length in H.
    replace (off + (off' - off)) with off' in H by lia. lia.
  Qed.

  Lemma spread_ext f g off size : spread f off size -> (forall i, off <= i < off + size -> f i = g i) ->
    spread g off size.
  Proof. intros H E p. rewrite <- (slice_ext f g) by exact E. apply H. Qed.

  Lemma spread_differ (L : ofield_laws K) f off size : spread f off size -> clf < size ->
    exists i j, off <= i < off + size /\ j < d /\ X (f off) j <> X (f i) j.
  Proof.
    intros H Hc. specialize (H (f off)).
    destruct (forallb (same_b (f off)) (slice f off size)) eqn:E.
    - assert (filter (same_b (f off)) (slice f off size) = slice f off size) as Ef.
      { rewrite forallb_forall in E. clear H. induction (slice f off size) as [|x l IH]; cbn; [reflexivity|].
        rewrite E by (left; reflexivity). f_equal. apply IH. intros y Hy. apply E. right. exact Hy. }
      rewrite Ef, slice_length in H. lia.
    - assert (exists k, In k (slice f off size) /\ same_b (f off) k = false) as (k & Hk & Ek).
      { clear H. induction (slice f off size) as [|x l IH]; cbn in E; [discriminate|].
        apply andb_false_iff in E as [E|E].
        - exists x. split; [left; reflexivity|exact E].
        - destruct (IH E) as (k & Hk & Ek). exists k. split; [right; exact Hk|exact Ek]. }
      apply in_slice in Hk as (i & Hi & <-). unfold same_b in Ek.
      assert (exists j, In j (seq 0 d) /\ feqb (X (f off) j) (X (f i) j) = false) as (j & Hj & Ej).
      { induction (seq 0 d) as [|x l IH]; cbn in Ek; [discriminate|].
        apply andb_false_iff in Ek as [E'|E'].
        - exists x. split; [left; reflexivity|exact E'].
        - destruct (IH E') as (k & Hk & Ek'). exists k. split; [right; exact Hk|exact Ek']. }
      exists i, j. split; [exact Hi|]. apply in_seq in Hj. split; [lia|]. intros C.
      apply (fl_eqb K (ol_field K L)) in C. congruence.
  Qed.

  Lemma put_hmax_ok cf dir v : gok cf -> dir < d -> rok (put_hmax cf dir v) (fun cf' => geo_same cf cf' /\
    g_hmin cf' = g_hmin cf /\ (forall H2, aval (g_hmax cf) d H2 -> aval (g_hmax cf') d (afupd H2 dir v))).
  Proof.
    intros (G & D & M) Hdir. unfold put_hmax, aset. rewrite (gv_hmax _ _ _ _ _ G), D.
    destruct (Nat.ltb_spec dir d); [|lia]. cbn. split.
    - apply geo_same_set; [apply (gv_hmin _ _ _ _ _ G)|rewrite lupd_length; apply (gv_hmax _ _ _ _ _ G)].
    - split; [reflexivity|]. intros H2 V.
      assert (Q : rok (aset (g_hmax cf) dir v) (fun a => aval a d (afupd H2 dir v)))
        by (eapply rok_aset; [exact V|lia|auto]).
      unfold aset in Q. rewrite (gv_hmax _ _ _ _ _ G), D in Q. destruct (Nat.ltb_spec dir d); [exact Q|lia].
  Qed.
  Lemma put_hmin_ok cf dir v : gok cf -> dir < d -> rok (put_hmin cf dir v) (fun cf' => geo_same cf cf' /\
    g_hmax cf' = g_hmax cf /\ (forall H1, aval (g_hmin cf) d H1 -> aval (g_hmin cf') d (afupd H1 dir v))).
  Proof.
    intros (G & D & M) Hdir. unfold put_hmin, aset. rewrite (gv_hmin _ _ _ _ _ G), D.
    destruct (Nat.ltb_spec dir d); [|lia]. cbn. split.
    - apply geo_same_set; [rewrite lupd_length; apply (gv_hmin _ _ _ _ _ G)|apply (gv_hmax _ _ _ _ _ G)].
    - split; [reflexivity|]. intros H1 V.
      assert (Q : rok (aset (g_hmin cf) dir v) (fun a => aval a d (afupd H1 dir v)))
        by (eapply rok_aset; [exact V|lia|auto]).
      unfold aset in Q. rewrite (gv_hmin _ _ _ _ _ G), D in Q. destruct (Nat.ltb_spec dir d); [exact Q|lia].
  Qed.

  (** ** Adaptive clustering *)
  Hypothesis Hd : 0 < d.

  Lemma rok_max_dir cf H1 H2 : gok cf -> aval (g_hmin cf) d H1 -> aval (g_hmax cf) d H2 ->
    rok (max_dir cf) (fun '(dir, a) => dir < d /\ a = fsub (H2 dir) (H1 dir) /\
      (order_laws K -> forall j, j < d -> fle (fsub (H2 j) (H1 j)) a)).
  Proof.
    intros (G & D & M) V1 V2. unfold max_dir.
    rewrite (aval_get _ _ _ _ V2) by lia. cbn [rbind].
    rewrite (aval_get _ _ _ _ V1) by lia. cbn [rbind]. rewrite D.
    eapply (rok_for (fun i '(dir, a) => dir < d /\ a = fsub (H2 dir) (H1 dir) /\
      (order_laws K -> forall j, j < i -> fle (fsub (H2 j) (H1 j)) a))).
    - split; [exact Hd|]. split; [reflexivity|]. intros O j Hj. replace j with 0 by lia. apply (ole_refl O).
    - intros i [dir a] Hi (A & B & C).
      rewrite (aval_get _ _ _ _ V2) by lia. cbn [rbind].
      rewrite (aval_get _ _ _ _ V1) by lia. cbn [rbind rok].
      destruct (flt a _) eqn:E.
      + split; [lia|]. split; [reflexivity|]. intros O j Hj.
        destruct (Nat.eq_dec j i) as [->|Ne]; [apply (ole_refl O)|].
        eapply (ole_trans O); [apply C; [exact O|lia]|apply (olt_le O); exact E].
      + split; [exact A|]. split; [exact B|]. intros O j Hj.
        destruct (Nat.eq_dec j i) as [->|Ne]; [exact E|apply C; [exact O|lia]].
    - intros [dir a] (A & B & C). split; [exact A|]. split; [exact B|]. intros O j Hj.
      apply C; [exact O|lia].
  Qed.

  (** With exact arithmetic both parts are non-empty. *)
  Lemma split_left (L : ofield_laws K) f f' off size dir m : 0 < size -> dir < d ->
    flt (lo X f off (size - 1) dir) m = true ->
    Permutation (slice f off size) (slice f' off size) ->
    (forall i, off <= i < off + size -> flt (X (f' i) dir) m = false) -> False.
  Proof.
    intros Hs Hdir Hm P H. destruct (lo_att X f off (size - 1) dir) as (i & Hi & E).
    destruct (perm_in_slice f f' off size i P ltac:(lia)) as (i' & Hi' & E').
    specialize (H i' Hi'). rewrite E' in H. rewrite E in Hm. congruence.
  Qed.
  Lemma split_right (L : ofield_laws K) f f' off size dir m : 0 < size -> dir < d ->
    flt m (hi X f off (size - 1) dir) = true ->
    Permutation (slice f off size) (slice f' off size) ->
    (forall i, off <= i < off + size -> flt (X (f' i) dir) m = true) -> False.
  Proof.
    intros Hs Hdir Hm P H. destruct (hi_att X f off (size - 1) dir) as (i & Hi & E).
    destruct (perm_in_slice f f' off size i P ltac:(lia)) as (i' & Hi' & E').
    specialize (H i' Hi'). rewrite E' in H. rewrite E in Hm.
    pose proof (ol_trans K L _ _ _ Hm H) as C. rewrite (ol_irrefl K L) in C. discriminate.
  Qed.

  Definition bad_ad (n size : nat) (e : err) : Prop :=
    (e = EFuel /\ n < size) \/ (e = EAssert /\ ~ ofield_laws K).

  Lemma rok_adaptive n : forall cf idx len f off size,
    gok cf -> iok idx len f off size -> 0 < size ->
    rokE (bad_ad n size) (build_adaptive n cf idx off size clf) (built true cf len f off size).
  Proof.
    induction n as [|n IH]; intros cf idx len f off size G I Hs; cbn [build_adaptive].
    { left. split; [reflexivity|lia]. }
    destruct (Nat.ltb_spec 0 size); [|lia]. cbn [rassert rbind].
    apply finish. destruct (Nat.ltb_spec clf size) as [Hc|Hc].
    2:{ eapply leaf_pre; try eassumption. left. exact Hc. }
    eapply rokE_seq; [eapply rok_point_bbox; eassumption|].
    intros cf1 (GS1 & G1 & V1 & V2).
    eapply rokE_seq; [eapply rok_max_dir; eassumption|].
    intros [dir a] (Hdir & Ea & Hmax).
    destruct (flt f0 a) eqn:Ha.
    - unfold midpoint. rewrite (aval_get _ _ _ _ V2) by lia. cbn [rbind].
      rewrite (aval_get _ _ _ _ V1) by lia. cbn [rbind].
      set (m := fdiv (fadd (hi X f off (size - 1) dir) (lo X f off (size - 1) dir)) f2).
      eapply rokE_seq; [eapply (rok_split N (left_of cf1 dir m)); [exact I|apply left_of_ok; assumption]|].
      intros [[idx2 size0] size1] (f2 & I2 & Es & O2 & P2 & T2 & F2).
      assert (Hm : ofield_laws K -> flt (lo X f off (size - 1) dir) m = true /\ flt m (hi X f off (size - 1) dir) = true).
      { intros L. apply (mid_lt L). apply (flt_sub L). rewrite <- Ea. exact Ha. }
      destruct (Nat.ltb_spec 0 size0) as [H0|H0].
      + destruct (Nat.ltb_spec 0 size1) as [H1|H1].
        * assert (I2' : iok idx2 len f2 off size) by (eapply iok_perm; eassumption).
          apply rokE_bind. eapply rokE_conseq; [apply IH; [exact G1|eapply iok_sub; [exact I2'|lia|lia]|exact H0]| |].
          { intros e [[-> He]|He]; [left; split; [reflexivity|lia]|right; exact He]. }
          intros [[t0 cf3] idx3] (f3 & I3 & O3 & P3 & GS3 & T3).
          assert (G3 : gok cf3) by (eapply gok_same; eassumption).
          assert (I3' : iok idx3 len f3 (off + size0) size1).
          { split; [exact I3|]. split; [destruct I2'; lia|]. intros i Hi. rewrite O3 by lia. apply I2'. lia. }
          apply rokE_bind. eapply rokE_conseq; [apply IH; [exact G3|exact I3'|exact H1]| |].
          { intros e [[-> He]|He]; [left; split; [reflexivity|lia]|right; exact He]. }
          intros [[t1 cf4] idx4] (f4 & I4 & O4 & P4 & GS4 & T4).
          rewrite <- Es in *.
          eapply join2 with (f2 := f3) (f3 := f4); try eassumption.
          -- intros i Hi. rewrite O4, O3, O2 by lia. reflexivity.
          -- eapply Permutation_trans; [exact P2|]. rewrite !slice_app. apply Permutation_app.
             ++ eapply Permutation_trans; [exact P3|]. erewrite (slice_ext f3 f4); [apply Permutation_refl|].
                intros i Hi. rewrite O4 by lia. reflexivity.
             ++ erewrite (slice_ext f2 f3); [exact P4|]. intros i Hi. rewrite O3 by lia. reflexivity.
          -- eapply geo_same_trans; [exact GS1|]. eapply geo_same_trans; eassumption.
          -- intros i Hi. rewrite O4 by lia. reflexivity.
        * replace size0 with size by lia. rewrite Nat.eqb_refl. cbn.
          right. split; [reflexivity|]. intros L.
          eapply (split_right L f f2 off size dir m); auto; try (apply Hm; exact L).
          intros i Hi. apply T2. lia.
      + destruct (Nat.ltb_spec 0 size1); [|lia]. replace size1 with size by lia. rewrite Nat.eqb_refl. cbn.
        right. split; [reflexivity|]. intros L.
        eapply (split_left L f f2 off size dir m); auto; try (apply Hm; exact L).
        intros i Hi. apply F2. lia.
    - destruct (feqb a f0) eqn:Ea0.
      + cbn [rassert rbind].
        eapply (rokE_conseq (bad_ad (S n) size)); [eapply leaf_pre; try eassumption| |].
        * right. split; [reflexivity|]. intros L i i' Hi Hi' j Hj.
          pose proof (ofield_order L) as O.
          apply (fl_eqb K (ol_field K L)) in Ea0.
          pose proof (Hmax O j Hj) as Hw. rewrite Ea0 in Hw.
          assert (fle (hi X f off (size - 1) j) (lo X f off (size - 1) j)) as Hle.
          { unfold fle in Hw |- *. destruct (flt _ (hi _ _ _ _ _)) eqn:E; [|reflexivity].
            apply (flt_sub L) in E. congruence. }
          apply (fle_antisym L).
          -- eapply (ole_trans O); [apply (hi_ge O X f off (size - 1)); lia|].
             eapply (ole_trans O); [exact Hle|apply (lo_le O); lia].
          -- eapply (ole_trans O); [apply (hi_ge O X f off (size - 1)); lia|].
             eapply (ole_trans O); [exact Hle|apply (lo_le O); lia].
        * auto.
        * intros [[t cf'] idx'] (f' & A & B & C & D & E). exists f'. repeat (split; [assumption|]).
          split; [|exact E]. eapply geo_same_trans; eassumption.
      + cbn. right. split; [reflexivity|]. intros L.
        assert (a = f0) as E.
        { apply (fle_antisym L); [exact Ha|]. rewrite Ea. apply (proj1 (fle_sub L _ _)).
          eapply (ole_trans (ofield_order L)).
          - apply (lo_le (ofield_order L) X f off (size - 1) dir off). lia.
          - apply (hi_ge (ofield_order L)). lia. }
        apply (fl_eqb K (ol_field K L)) in E. congruence.
  Qed.

  (** ** Regular clustering *)

  (** Direction [j] splits the range. *)
  Definition wide (f : nat -> nat) (off size j : nat) : Prop :=
    flt (lo X f off (size - 1) j) (hi X f off (size - 1) j) = true.

  Lemma spread_wide (L : ofield_laws K) f off size : spread f off size -> clf < size ->
    exists j, j < d /\ wide f off size j.
  Proof.
    intros H Hc. destruct (spread_differ L f off size H Hc) as (i & j & Hi & Hj & Ne).
    exists j. split; [exact Hj|]. unfold wide. pose proof (ofield_order L) as O.
    pose proof (lo_le O X f off (size - 1) j off ltac:(lia)) as A1.
    pose proof (lo_le O X f off (size - 1) j i ltac:(lia)) as A2.
    pose proof (hi_ge O X f off (size - 1) j off ltac:(lia)) as B1.
    pose proof (hi_ge O X f off (size - 1) j i ltac:(lia)) as B2.
    destruct (ol_total K L _ _ Ne) as [Hlt|Hlt].
    - eapply (ole_lt_trans O); [exact A1|]. eapply (olt_le_trans O); eassumption.
    - eapply (ole_lt_trans O); [exact A2|]. eapply (olt_le_trans O); eassumption.
  Qed.

  Definition good_reg (n : nat) (f : nat -> nat) (off size dir : nat) : Prop :=
    ofield_laws K /\ 0 < n /\ spread f off size /\
    (clf < size -> exists k, k < d /\ wide f off size ((dir + k) mod d) /\ size * d + k < n).

  Definition bad_reg (n : nat) (f : nat -> nat) (off size dir : nat) (e : err) : Prop :=
    (e = EAssert \/ e = EFuel) /\ ~ good_reg n f off size dir.

  Lemma good_sub n f f' off size off' size' dir dir' : good_reg (S n) f off size dir -> clf < size ->
    Permutation (slice f off size) (slice f' off size) ->
    off <= off' -> off' + size' <= off + size -> size' < size -> 0 < size' -> dir' < d ->
    good_reg n f' off' size' dir'.
  Proof.
    intros (L & _ & Sp & Hk) Hc P H1 H2 H3 H4 Hdir'. destruct (Hk Hc) as (k & Hkd & _ & Hm).
    assert (Sp' : spread f' off' size').
    { eapply spread_sub; [eapply spread_perm; eassumption|exact H1|exact H2]. }
    split; [exact L|]. split; [nia|]. split; [exact Sp'|]. intros Hc'.
    destruct (spread_wide L f' off' size' Sp' Hc') as (j & Hj & Wj).
    exists (if dir' <=? j then j - dir' else j + d - dir').
    destruct (Nat.leb_spec dir' j).
    - split; [lia|]. split; [|nia]. replace (dir' + (j - dir')) with j by lia. rewrite Nat.mod_small by lia. exact Wj.
    - split; [lia|]. split; [|nia]. replace (dir' + (j + d - dir')) with (j + 1 * d) by lia.
      rewrite Nat.mod_add by lia. rewrite Nat.mod_small by lia. exact Wj.
  Qed.

  Definition newd (dir : nat) : nat := if dir <? d - 1 then dir + 1 else 0.
  Lemma newd_lt dir : dir < d -> newd dir < d.
  Proof. unfold newd. intros H. bsplit. Qed.
  Lemma newd_mod dir k : dir < d -> (newd dir + k) mod d = (dir + S k) mod d.
  Proof.
    intros H. unfold newd. bsplit.
    - f_equal. lia.
    - replace (dir + S k) with (k + 1 * d) by lia. rewrite Nat.mod_add by lia. f_equal.
  Qed.

  Lemma good_next n f off size dir : good_reg (S n) f off size dir -> clf < size -> dir < d ->
    ~ wide f off size dir -> good_reg n f off size (newd dir).
  Proof.
    intros (L & _ & Sp & Hk) Hc Hdir Nw. destruct (Hk Hc) as (k & Hkd & Wk & Hm).
    destruct k as [|k].
    { rewrite Nat.add_0_r, Nat.mod_small in Wk by lia. contradiction. }
    split; [exact L|]. split; [lia|]. split; [exact Sp|]. intros _.
    exists k. split; [lia|]. split; [|lia]. rewrite newd_mod by exact Hdir. exact Wk.
  Qed.

  Lemma rok_regular n : forall cf idx len f off size dir,
    gok cf -> iok idx len f off size -> 0 < size -> dir < d ->
    rokE (bad_reg n f off size dir) (build_regular n cf idx off size clf dir) (built false cf len f off size).
  Proof.
    induction n as [|n IH]; intros cf idx len f off size dir G I Hs Hdir; cbn [build_regular].
    { split; [right; reflexivity|]. intros (_ & C & _). lia. }
    destruct (Nat.ltb_spec 0 size); [|lia]. cbn [rassert rbind].
    apply finish. destruct (Nat.ltb_spec clf size) as [Hc|Hc].
    2:{ eapply leaf_pre; try eassumption. left. exact Hc. }
    eapply rokE_seq; [eapply rok_point_bbox; eassumption|].
    intros cf1 (GS1 & G1 & V1 & V2).
    assert (Edim : g_dim cf1 = d) by apply G1. rewrite Edim. fold (newd dir).
    pose proof (newd_lt dir Hdir) as Hnd.
    rewrite (aval_get _ _ _ _ V2) by lia. cbn [rbind].
    rewrite (aval_get _ _ _ _ V1) by lia. cbn [rbind].
    destruct (flt f0 _) eqn:Ha.
    - unfold midpoint. rewrite (aval_get _ _ _ _ V2) by lia. cbn [rbind].
      rewrite (aval_get _ _ _ _ V1) by lia. cbn [rbind].
      set (m := fdiv (fadd (hi X f off (size - 1) dir) (lo X f off (size - 1) dir)) f2).
      eapply rokE_seq; [eapply (rok_split N (left_of cf1 dir m)); [exact I|apply left_of_ok; assumption]|].
      intros [[idx2 size0] size1] (f2 & I2 & Es & O2 & P2 & T2 & F2).
      assert (I2' : iok idx2 len f2 off size) by (eapply iok_perm; eassumption).
      assert (Hm : ofield_laws K -> flt (lo X f off (size - 1) dir) m = true /\ flt m (hi X f off (size - 1) dir) = true).
      { intros L. apply (mid_lt L). apply (flt_sub L). exact Ha. }
      destruct (Nat.ltb_spec 0 size0) as [H0|H0].
      + destruct (Nat.ltb_spec 0 size1) as [H1|H1].
        * eapply rokE_seq; [apply put_hmax_ok; [exact G1|exact Hdir]|].
          intros cf1a (GSa & _). assert (G1a : gok cf1a) by (eapply gok_same; eassumption).
          apply rokE_bind. eapply rokE_conseq; [apply IH; [exact G1a|eapply iok_sub; [exact I2'|lia|lia]|exact H0|exact Hnd]| |].
          { intros e [He Nb]. split; [exact He|]. intros Good. apply Nb.
            eapply good_sub; try eassumption; lia. }
          intros [[t0 cf3] idx3] (f3 & I3 & O3 & P3 & GS3 & T3).
          assert (G3 : gok cf3) by (eapply gok_same; eassumption).
          assert (I3' : iok idx3 len f3 (off + size0) size1).
          { split; [exact I3|]. split; [destruct I2'; lia|]. intros i Hi. rewrite O3 by lia. apply I2'. lia. }
          eapply rokE_seq; [apply put_hmax_ok; [exact G3|exact Hdir]|].
          intros cf3a (GS3a & _). assert (G3a : gok cf3a) by (eapply gok_same; eassumption).
          eapply rokE_seq; [apply put_hmin_ok; [exact G3a|exact Hdir]|].
          intros cf3b (GS3b & _). assert (G3b : gok cf3b) by (eapply gok_same; eassumption).
          apply rokE_bind. eapply rokE_conseq; [apply IH; [exact G3b|exact I3'|exact H1|exact Hnd]| |].
          { intros e [He Nb]. split; [exact He|]. intros Good. apply Nb.
            assert (good_reg n f2 (off + size0) size1 (newd dir)) as G2.
            { eapply good_sub; try eassumption; lia. }
            destruct G2 as (L & Hn & Sp & Hk). split; [exact L|]. split; [exact Hn|].
            assert (Ex : forall i, off + size0 <= i < off + size0 + size1 -> f2 i = f3 i).
            { intros i Hi. rewrite O3 by lia. reflexivity. }
            split; [eapply spread_ext; eassumption|]. intros Hc'.
            destruct (Hk Hc') as (k & Hkd & Wk & Hkm). exists k. split; [exact Hkd|]. split; [|exact Hkm].
            unfold wide in Wk |- *. clear -Wk Ex H1.
            replace (lo X f3 (off + size0) (size1 - 1)) with (lo X f2 (off + size0) (size1 - 1)).
            2:{ clear Wk. assert (forall q, q < size1 -> lo X f2 (off + size0) q = lo X f3 (off + size0) q) as Q.
                { induction q as [|q IHq]; intros Hq; cbn.
                  - rewrite Ex by lia. reflexivity.
                  - rewrite IHq by lia. rewrite Ex by lia. reflexivity. }
                apply Q. lia. }
            replace (hi X f3 (off + size0) (size1 - 1)) with (hi X f2 (off + size0) (size1 - 1)).
            2:{ clear Wk. assert (forall q, q < size1 -> hi X f2 (off + size0) q = hi X f3 (off + size0) q) as Q.
                { induction q as [|q IHq]; intros Hq; cbn.
                  - rewrite Ex by lia. reflexivity.
                  - rewrite IHq by lia. rewrite Ex by lia. reflexivity. }
                apply Q. lia. }
            exact Wk. }
          intros [[t1 cf4] idx4] (f4 & I4 & O4 & P4 & GS4 & T4).
          assert (G4 : gok cf4) by (eapply gok_same; eassumption).
          eapply rokE_seq; [apply put_hmin_ok; [exact G4|exact Hdir]|].
          intros cf4a (GS4a & _).
          rewrite <- Es in *.
          eapply join2 with (f2 := f3) (f3 := f4); try eassumption.
          -- intros i Hi. rewrite O4, O3, O2 by lia. reflexivity.
          -- eapply Permutation_trans; [exact P2|]. rewrite !slice_app. apply Permutation_app.
             ++ eapply Permutation_trans; [exact P3|]. erewrite (slice_ext f3 f4); [apply Permutation_refl|].
                intros i Hi. rewrite O4 by lia. reflexivity.
             ++ erewrite (slice_ext f2 f3); [exact P4|]. intros i Hi. rewrite O3 by lia. reflexivity.
          -- eapply geo_same_trans; [exact GS1|]. eapply geo_same_trans; [exact GSa|].
             eapply geo_same_trans; [exact GS3|]. eapply geo_same_trans; [exact GS3a|].
             eapply geo_same_trans; [exact GS3b|]. eapply geo_same_trans; eassumption.
          -- intros i Hi. rewrite O4 by lia. reflexivity.
        * eapply rokE_seq; [apply put_hmax_ok; [exact G1|exact Hdir]|].
          intros cf1a (GSa & _). assert (G1a : gok cf1a) by (eapply gok_same; eassumption).
          apply rokE_bind. eapply rokE_conseq; [apply IH; [exact G1a|exact I2'|exact Hs|exact Hnd]| |].
          { intros e [He Nb]. split; [exact He|]. intros (L & _).
            eapply (split_right L f f2 off size dir m); auto; try (apply Hm; exact L).
            intros i Hi. apply T2. lia. }
          intros [[t0 cf3] idx3] (f3 & I3 & O3 & P3 & GS3 & T3).
          assert (G3 : gok cf3) by (eapply gok_same; eassumption).
          eapply rokE_seq; [apply put_hmax_ok; [exact G3|exact Hdir]|].
          intros cf3a (GS3a & _).
          eapply join1 with (f' := f3); try eassumption.
          -- intros i Hi. rewrite O3, O2 by lia. reflexivity.
          -- eapply Permutation_trans; eassumption.
          -- eapply geo_same_trans; [exact GS1|]. eapply geo_same_trans; [exact GSa|].
             eapply geo_same_trans; eassumption.
      + destruct (Nat.ltb_spec 0 size1); [|lia]. cbn [rassert rbind].
        eapply rokE_seq; [apply put_hmin_ok; [exact G1|exact Hdir]|].
        intros cf1a (GSa & _). assert (G1a : gok cf1a) by (eapply gok_same; eassumption).
        apply rokE_bind. eapply rokE_conseq; [apply IH; [exact G1a|exact I2'|exact Hs|exact Hnd]| |].
        { intros e [He Nb]. split; [exact He|]. intros (L & _).
          eapply (split_left L f f2 off size dir m); auto; try (apply Hm; exact L).
          intros i Hi. apply F2. lia. }
        intros [[t0 cf3] idx3] (f3 & I3 & O3 & P3 & GS3 & T3).
        assert (G3 : gok cf3) by (eapply gok_same; eassumption).
        eapply rokE_seq; [apply put_hmin_ok; [exact G3|exact Hdir]|].
        intros cf3a (GS3a & _).
        eapply join1 with (f' := f3); try eassumption.
        -- intros i Hi. rewrite O3, O2 by lia. reflexivity.
        -- eapply Permutation_trans; eassumption.
        -- eapply geo_same_trans; [exact GS1|]. eapply geo_same_trans; [exact GSa|].
           eapply geo_same_trans; eassumption.
    - assert (Nw : ofield_laws K -> ~ wide f off size dir).
      { intros L Hw. unfold wide in Hw. apply (flt_sub L) in Hw. congruence. }
      destruct (feqb _ f0) eqn:Ea0.
      + cbn [rassert rbind].
        apply rokE_bind. eapply rokE_conseq; [apply IH; [exact G1|exact I|exact Hs|exact Hnd]| |].
        { intros e [He Nb]. split; [exact He|]. intros Good. apply Nb.
          apply good_next; auto. apply Nw. apply Good. }
        intros [[t0 cf3] idx3] (f3 & I3 & O3 & P3 & GS3 & T3).
        eapply join1 with (f' := f3); try eassumption.
        eapply geo_same_trans; eassumption.
      + cbn. split; [left; reflexivity|]. intros (L & _).
        assert (fsub (hi X f off (size - 1) dir) (lo X f off (size - 1) dir) = f0) as E.
        { apply (fle_antisym L); [exact Ha|]. apply (proj1 (fle_sub L _ _)).
          eapply (ole_trans (ofield_order L)).
          - apply (lo_le (ofield_order L) X f off (size - 1) dir off). lia.
          - apply (hi_ge (ofield_order L)). lia. }
        apply (fl_eqb K (ol_field K L)) in E. congruence.
  Qed.
End Build.
