(** * Proofs about cluster construction *)
From Coq Require Import Arith Lia List Bool Permutation.
From Verif Require Import Fld Ord Prog Arr Loop Cluster ClusterSpec.
Import ListNotations.

(** Computations that may fail with certain errors. *)
Definition rokE {A} (E : err -> Prop) (r : res A) (Q : A -> Prop) : Prop :=
  match r with Ok a => Q a | Err e => E e end.

Lemma rokE_bind {A B} E (r : res A) (f : A -> res B) (Q : B -> Prop) :
  rokE E r (fun a => rokE E (f a) Q) -> rokE E (rbind r f) Q.
Proof. destruct r; cbn; auto. Qed.

Lemma rokE_conseq {A} (E E' : err -> Prop) (r : res A) (Q Q' : A -> Prop) :
  rokE E r Q -> (forall e, E e -> E' e) -> (forall a, Q a -> Q' a) -> rokE E' r Q'.
Proof. destruct r; cbn; auto. Qed.

Lemma rok_rokE {A} E (r : res A) (Q : A -> Prop) : rok r Q -> rokE E r Q.
Proof. destruct r; cbn; [auto|contradiction]. Qed.

Lemma rokE_seq {A B} E (r : res A) (f : A -> res B) (P : A -> Prop) (Q : B -> Prop) :
  rok r P -> (forall a, P a -> rokE E (f a) Q) -> rokE E (rbind r f) Q.
Proof. destruct r; cbn; [auto|contradiction]. Qed.

(** ** Trees *)
Lemma cluster_rect' {K : ofops} (P : cluster K -> Prop) :
  (forall size off sons dim b1 b2 d typ, Forall P sons -> P (Cl size off sons dim b1 b2 d typ)) ->
  forall t, P t.
Proof.
  intros H. fix IH 1. intros [size off sons dim b1 b2 d typ]. apply H.
  induction sons as [|s sons IHs]; constructor; [apply IH|exact IHs].
Qed.

Section Nodes.
  Context {K : ofops}.
  Implicit Types t s : cluster K.

  Lemma nodes_eq t : nodes t = t :: flat_map nodes (c_sons t).
  Proof. destruct t; reflexivity. Qed.

  Lemma in_nodes t s : In s (nodes t) <-> s = t \/ exists c, In c (c_sons t) /\ In s (nodes c).
  Proof.
    rewrite nodes_eq. cbn. rewrite in_flat_map. split; intros [H|H]; auto.
  Qed.

  Lemma nodes_refl t : In t (nodes t).
  Proof. apply in_nodes. left. reflexivity. Qed.

  Lemma tiles_in l : forall off size s, tiles off size l -> In s l ->
    off <= c_off s /\ c_off s + c_size s <= off + size.
  Proof.
    induction l as [|s0 l IH]; intros off size s H Hin; [destruct Hin|].
    cbn in H. destruct H as (H1 & H2 & H3). destruct Hin as [<-|Hin]; [lia|].
    destruct (IH _ _ _ H3 Hin). lia.
  Qed.

  (** Every cluster of the tree lies inside the range of the root. *)
  Lemma nodes_within t : (forall s, In s (nodes t) -> c_sons s <> [] -> tiles (c_off s) (c_size s) (c_sons s)) ->
    forall s, In s (nodes t) -> c_off t <= c_off s /\ c_off s + c_size s <= c_off t + c_size t.
  Proof.
    induction t as [size off sons dim b1 b2 d typ IH] using cluster_rect'.
    intros H s Hs. apply in_nodes in Hs as [->|(c & Hc & Hs)]; [lia|].
    cbn [c_sons] in Hc. rewrite Forall_forall in IH.
    assert (Hc' : forall s, In s (nodes c) -> c_sons s <> [] -> tiles (c_off s) (c_size s) (c_sons s)).
    { intros s' Hs'. apply H. apply in_nodes. right. exists c. split; assumption. }
    destruct (IH c Hc Hc' s Hs) as [A B].
    assert (sons <> []) as N by (intros ->; destruct Hc).
    pose proof (H _ (nodes_refl _) N) as T. cbn [c_off c_size c_sons] in T |- *.
    destruct (tiles_in _ _ _ _ T Hc). lia.
  Qed.
End Nodes.

(** ** Slices and permutations *)
Lemma slice_length {A} (f : nat -> A) off n : length (slice f off n) = n.
Proof. unfold slice. rewrite map_length, seq_length. reflexivity. Qed.

Lemma slice_app {A} (f : nat -> A) off a b : slice f off (a + b) = slice f off a ++ slice f (off + a) b.
Proof. unfold slice. rewrite seq_app, map_app. reflexivity. Qed.

Lemma in_slice {A} (f : nat -> A) off n x : In x (slice f off n) <-> exists i, off <= i < off + n /\ f i = x.
Proof.
  unfold slice. rewrite in_map_iff. split.
  - intros (i & E & H). apply in_seq in H. exists i. split; [lia|exact E].
  - intros (i & H & E). exists i. split; [exact E|]. apply in_seq. lia.
Qed.

Lemma slice_ext {A} (f g : nat -> A) off n : (forall i, off <= i < off + n -> f i = g i) -> slice f off n = slice g off n.
Proof.
  intros H. apply map_ext_in. intros i Hi. apply in_seq in Hi. apply H. lia.
Qed.

Definition transp (a b i : nat) : nat := if i =? a then b else if i =? b then a else i.

Lemma transp_invol a b i : transp a b (transp a b i) = i.
Proof. unfold transp. bsplit; congruence || lia. Qed.

Lemma swap_perm {A} (f g : nat -> A) off n a b : off <= a < off + n -> off <= b < off + n ->
  (forall i, g i = f (transp a b i)) -> Permutation (slice f off n) (slice g off n).
Proof.
  intros Ha Hb Hg. unfold slice.
  rewrite (map_ext _ _ Hg), <- (map_map (transp a b) f). apply Permutation_map.
  apply NoDup_Permutation.
  - apply seq_NoDup.
  - apply FinFun.Injective_map_NoDup; [|apply seq_NoDup].
    intros x y E. rewrite <- (transp_invol a b x), E. apply transp_invol.
  - intros x. rewrite in_map_iff. split.
    + intros Hx. exists (transp a b x). split; [apply transp_invol|].
      apply in_seq in Hx. apply in_seq. unfold transp. bsplit; lia.
    + intros (y & <- & Hy). apply in_seq in Hy. apply in_seq. unfold transp. bsplit; lia.
Qed.

(** ** Box loops *)
Section Box.
  Context {K : ofops}.
  Variables (g1 g2 : nat -> nat -> res K) (V1 V2 : nat -> nat -> K) (N d : nat).
  Hypothesis G1 : forall k j, k < N -> j < d -> g1 k j = Ok (V1 k j).
  Hypothesis G2 : forall k j, k < N -> j < d -> g2 k j = Ok (V2 k j).

  (** Minimum and maximum over positions [off .. off+n]. *)
  Fixpoint lo (V : nat -> nat -> K) (f : nat -> nat) (off n j : nat) : K :=
    match n with
    | O => V (f off) j
    | S n' => let m := lo V f off n' j in
              let v := V (f (off + S n')) j in if flt v m then v else m
    end.
  Fixpoint hi (V : nat -> nat -> K) (f : nat -> nat) (off n j : nat) : K :=
    match n with
    | O => V (f off) j
    | S n' => let m := hi V f off n' j in
              let v := V (f (off + S n')) j in if flt m v then v else m
    end.

  Definition box_loops (idx : arr nat) (off size : nat) (b : arr K * arr K) : res (arr K * arr K) :=
    let* (h1, h2) := rfor 0 d (fun j '(h1, h2) =>
      let* k := aget idx off in
      let* v1 := g1 k j in
      let* v2 := g2 k j in
      let* h1 := aset h1 j v1 in
      let* h2 := aset h2 j v2 in
      Ok (h1, h2)) b in
    rfor 1 (size - 1) (fun i '(h1, h2) =>
      rfor 0 d (fun j '(h1, h2) =>
        let* k := aget idx (off + i) in
        let* v1 := g1 k j in
        let* m1 := aget h1 j in
        let* h1 := (if flt v1 m1 then aset h1 j v1 else Ok h1) in
        let* v2 := g2 k j in
        let* m2 := aget h2 j in
        let* h2 := (if flt m2 v2 then aset h2 j v2 else Ok h2) in
        Ok (h1, h2)) (h1, h2)) (h1, h2).

  Lemma rok_box_loops idx n f off size b (Q : arr K * arr K -> Prop) :
    aval idx n f -> 0 < size -> off + size <= n ->
    (forall i, off <= i < off + size -> f i < N) ->
    length (fst b) = d -> length (snd b) = d ->
    (forall b1 b2, aval b1 d (lo V1 f off (size - 1)) -> aval b2 d (hi V2 f off (size - 1)) -> Q (b1, b2)) ->
    rok (box_loops idx off size b) Q.
  Proof.
    intros Hi Hs Hn HN L1 L2 HQ. unfold box_loops. apply rok_bind.
    eapply (rok_for (fun j '(h1, h2) => aprt h1 d (fun k => k < j) (lo V1 f off 0)
                                     /\ aprt h2 d (fun k => k < j) (hi V2 f off 0))).
    - destruct b as [h1 h2]. cbn in L1, L2. split; (split; [assumption|intros; lia]).
    - intros j [h1 h2] Hj [H1 H2]. rewrite (aval_get _ _ _ _ Hi) by lia. cbn [rbind].
      rewrite G1, G2 by (try lia; apply HN; lia). cbn [rbind].
      apply rok_bind. eapply rok_aset_prt; [exact H1|lia|]. intros h1' H1'.
      apply rok_bind. eapply rok_aset_prt; [exact H2|lia|]. intros h2' H2'. cbn.
      split; (eapply aprt_ext; [eassumption| |]; cbn; unfold afupd; intros k Hk Hk2; [lia|]; bsplit; subst; reflexivity).
    - intros [h1 h2] [H1 H2].
      eapply (rok_for (fun i '(h1, h2) => aval h1 d (lo V1 f off (i - 1)) /\ aval h2 d (hi V2 f off (i - 1)))).
      + split; (eapply aprt_aval; [|eassumption]; cbn; lia).
      + clear h1 h2 H1 H2. intros i [h1 h2] Hii [H1 H2].
        eapply (rok_for (fun j '(h1, h2) =>
          aval h1 d (fun k => if k <? j then lo V1 f off i k else lo V1 f off (i - 1) k) /\
          aval h2 d (fun k => if k <? j then hi V2 f off i k else hi V2 f off (i - 1) k))).
        * split; assumption.
        * clear h1 h2 H1 H2. intros j [h1 h2] Hj [H1 H2].
          rewrite (aval_get _ _ _ _ Hi) by lia. cbn [rbind].
          rewrite G1 by (try lia; apply HN; lia). cbn [rbind].
          rewrite (aval_get _ _ _ _ H1) by lia. cbn [rbind].
          assert (Hj1 : (j <? j) = false) by (apply Nat.ltb_irrefl). rewrite Hj1.
          destruct i as [|i]; [lia|]. replace (S i - 1) with i in * by lia.
          apply rok_bind.
          eapply (rok_conseq _ (fun h1 => aval h1 d (fun k => if k <? S j then lo V1 f off (S i) k else lo V1 f off i k))).
          { destruct (flt _ _) eqn:E.
            - eapply rok_aset; [exact H1|lia|]. intros h' H'. eapply aval_ext; [exact H'|].
              intros k Hk. unfold afupd. cbn [lo]. bsplit; try reflexivity. subst k. rewrite E. reflexivity.
            - cbn. eapply aval_ext; [exact H1|]. intros k Hk. cbn [lo]. bsplit; try reflexivity.
              assert (k = j) by lia. subst k. rewrite E. reflexivity. }
          clear h1 H1. intros h1 H1.
          rewrite G2 by (try lia; apply HN; lia). cbn [rbind].
          rewrite (aval_get _ _ _ _ H2) by lia. cbn [rbind]. rewrite Hj1.
          apply rok_bind.
          eapply (rok_conseq _ (fun h2 => aval h2 d (fun k => if k <? S j then hi V2 f off (S i) k else hi V2 f off i k))).
          { destruct (flt _ _) eqn:E.
            - eapply rok_aset; [exact H2|lia|]. intros h' H'. eapply aval_ext; [exact H'|].
              intros k Hk. unfold afupd. cbn [hi]. bsplit; try reflexivity. subst k. rewrite E. reflexivity.
            - cbn. eapply aval_ext; [exact H2|]. intros k Hk. cbn [hi]. bsplit; try reflexivity.
              assert (k = j) by lia. subst k. rewrite E. reflexivity. }
          clear h2 H2. intros h2 H2. cbn. split; assumption.
        * clear h1 h2 H1 H2. intros [h1 h2] [H1 H2]. replace (S i - 1) with i by lia.
          split; (eapply aval_ext; [eassumption|]; cbn; intros k Hk; bsplit; reflexivity).
      + intros [h1' h2'] [H1' H2']. replace (1 + (size - 1) - 1) with (size - 1) in * by lia.
        apply HQ; assumption.
  Qed.
End Box.

Lemma lo_le {K : ofops} (O : order_laws K) V f off n j i : off <= i <= off + n -> fle (lo (K:=K) V f off n j) (V (f i) j).
Proof.
  revert i. induction n as [|n IH]; intros i Hi; cbn [lo].
  - replace i with off by lia. apply (ole_refl O).
  - destruct (Nat.eq_dec i (off + S n)) as [->|Ne].
    + destruct (flt _ _) eqn:E; [apply (ole_refl O)|exact E].
    + destruct (flt _ _) eqn:E; [|apply IH; lia].
      eapply (ole_trans O); [apply (olt_le O); exact E|apply IH; lia].
Qed.
Lemma hi_ge {K : ofops} (O : order_laws K) V f off n j i : off <= i <= off + n -> fle (V (f i) j) (hi (K:=K) V f off n j).
Proof.
  revert i. induction n as [|n IH]; intros i Hi; cbn [hi].
  - replace i with off by lia. apply (ole_refl O).
  - destruct (Nat.eq_dec i (off + S n)) as [->|Ne].
    + destruct (flt _ _) eqn:E; [apply (ole_refl O)|exact E].
    + destruct (flt _ _) eqn:E; [|apply IH; lia].
      eapply (ole_trans O); [apply IH; lia|apply (olt_le O); exact E].
Qed.
Lemma lo_att {K : ofops} V f off n j : exists i, off <= i <= off + n /\ lo (K:=K) V f off n j = V (f i) j.
Proof.
  induction n as [|n (i & Hi & E)]; cbn [lo].
  - exists off. split; [lia|reflexivity].
  - destruct (flt _ _).
    + exists (off + S n). split; [lia|reflexivity].
    + exists i. split; [lia|exact E].
Qed.
Lemma hi_att {K : ofops} V f off n j : exists i, off <= i <= off + n /\ hi (K:=K) V f off n j = V (f i) j.
Proof.
  induction n as [|n (i & Hi & E)]; cbn [hi].
  - exists off. split; [lia|reflexivity].
  - destruct (flt _ _).
    + exists (off + S n). split; [lia|reflexivity].
    + exists i. split; [lia|exact E].
Qed.

Lemma row_get {A} (a : arr (arr A)) n d F k j : row_val a n d F -> k < n -> j < d -> aget2 a k j = Ok (F k j).
Proof.
  intros H Hk Hj. destruct (H k Hk) as (r & E & Hr). unfold aget2, aget at 1. rewrite E. cbn.
  apply (aval_get _ _ _ _ Hr Hj).
Qed.

(** The geometry is unchanged except for [hmin] and [hmax]. *)
Definition geo_same {K : ofops} (cf cf' : cgeom K) : Prop :=
  cf' = set_h cf (g_hmin cf') (g_hmax cf') /\
  length (g_hmin cf') = g_dim cf /\ length (g_hmax cf') = g_dim cf.

Lemma geo_same_val {K : ofops} (cf cf' : cgeom K) X S1 S2 W : geo_val cf X S1 S2 W -> geo_same cf cf' ->
  geo_val cf' X S1 S2 W /\ g_dim cf' = g_dim cf /\ g_nidx cf' = g_nidx cf.
Proof.
  intros [A B C D F G] (E & L1 & L2). destruct cf'. cbn in *. inversion E; subst. cbn.
  split; [|split; reflexivity]. constructor; cbn; auto.
Qed.

Lemma geo_same_refl {K : ofops} (cf : cgeom K) X S1 S2 W : geo_val cf X S1 S2 W -> geo_same cf cf.
Proof. intros [A B C D F G]. split; [destruct cf; reflexivity|split; assumption]. Qed.

Lemma geo_same_trans {K : ofops} (a b c : cgeom K) : geo_same a b -> geo_same b c -> geo_same a c.
Proof.
  intros (E1 & A1 & B1) (E2 & A2 & B2).
  assert (g_dim b = g_dim a) as Ed by (rewrite E1; reflexivity).
  split; [|split; congruence]. rewrite E2 at 1. rewrite E1 at 1. reflexivity.
Qed.

Lemma geo_same_set {K : ofops} (cf : cgeom K) h1 h2 : length h1 = g_dim cf -> length h2 = g_dim cf ->
  geo_same cf (set_h cf h1 h2).
Proof. intros H1 H2. split; [reflexivity|split; assumption]. Qed.

Section Build.
  Context {K : ofops}.
  Variables (X Smin Smax : nat -> nat -> K) (W : nat -> K) (N d : nat).

  (** [gok cf]: [cf] holds the given geometry. *)
  Definition gok (cf : cgeom K) : Prop := geo_val cf X Smin Smax W /\ g_dim cf = d /\ g_nidx cf = N.

  Lemma gok_same cf cf' : gok cf -> geo_same cf cf' -> gok cf'.
  Proof.
    intros (G & D & M) S. destruct (geo_same_val _ _ _ _ _ _ G S) as (A & B & C).
    split; [exact A|split; congruence].
  Qed.

  (** The index array holds valid indices in the range. *)
  Definition iok (idx : arr nat) (n : nat) (f : nat -> nat) (off size : nat) : Prop :=
    aval idx n f /\ off + size <= n /\ forall i, off <= i < off + size -> f i < N.

  Lemma rok_point_bbox cf idx n f off size : gok cf -> iok idx n f off size -> 0 < size ->
    rok (update_point_bbox cf idx off size) (fun cf' => geo_same cf cf' /\ gok cf' /\
      aval (g_hmin cf') d (lo X f off (size - 1)) /\ aval (g_hmax cf') d (hi X f off (size - 1))).
  Proof.
    intros G (Hi & Hn & HN) Hs. pose proof G as (GV & D & M).
    unfold update_point_bbox. destruct (Nat.ltb_spec 0 size); [|lia]. cbn [rassert rbind].
    pose proof (rok_box_loops (aget2 (g_x cf)) (aget2 (g_x cf)) X X N d) as B.
    assert (GX : forall k j, k < N -> j < d -> aget2 (g_x cf) k j = Ok (X k j)).
    { intros k j Hk Hj. eapply row_get; [apply (gv_x _ _ _ _ _ GV)| |]; congruence. }
    specialize (B GX GX idx n f off size (g_hmin cf, g_hmax cf)
      (fun '(h1, h2) => aval h1 d (lo X f off (size - 1)) /\ aval h2 d (hi X f off (size - 1)))).
    specialize (B Hi Hs Hn HN). cbn [fst snd] in B.
    rewrite (gv_hmin _ _ _ _ _ GV), (gv_hmax _ _ _ _ _ GV) in B. specialize (B D D).
    unfold box_loops in B. rewrite D in *.
    specialize (B (fun b1 b2 P Q => conj P Q)). apply rok_inv in B as ([h1 h2] & E & P1 & P2).
    destruct (rfor 0 d _ _) as [[a1 a2]|e]; [|discriminate E]. cbn [rbind] in E |- *.
    rewrite E. cbn.
    assert (geo_same cf (set_h cf h1 h2)) as GS.
    { apply geo_same_set; [rewrite (proj1 P1)|rewrite (proj1 P2)]; auto. }
    split; [exact GS|split; [eapply gok_same; eassumption|split; assumption]].
  Qed.

  (** A box that contains the supports of the indices at [off..off+size-1]. *)
  Definition bx (f : nat -> nat) (off size : nat) (B1 B2 : nat -> K) : Prop :=
    order_laws K -> forall i j, off <= i < off + size -> j < d ->
      fle (B1 j) (Smin (f i) j) /\ fle (Smax (f i) j) (B2 j).

  Lemma rok_leaf cf idx n f off size : gok cf -> iok idx n f off size -> 0 < size ->
    rok (leaf_cluster cf idx off size) (fun t => exists b1 b2 B1 B2,
      t = Cl size off [] d b1 b2 None 0 /\ aval b1 d B1 /\ aval b2 d B2 /\ bx f off size B1 B2).
  Proof.
    intros G (Hi & Hn & HN) Hs. pose proof G as (GV & D & M).
    unfold leaf_cluster, update_support_bbox, new_cluster.
    destruct (Nat.ltb_spec 0 size); [|lia]. cbn [rassert rbind].
    pose proof (rok_box_loops (aget2 (g_smin cf)) (aget2 (g_smax cf)) Smin Smax N d) as B.
    assert (G1 : forall k j, k < N -> j < d -> aget2 (g_smin cf) k j = Ok (Smin k j)).
    { intros k j Hk Hj. eapply row_get; [apply (gv_smin _ _ _ _ _ GV)| |]; congruence. }
    assert (G2 : forall k j, k < N -> j < d -> aget2 (g_smax cf) k j = Ok (Smax k j)).
    { intros k j Hk Hj. eapply row_get; [apply (gv_smax _ _ _ _ _ GV)| |]; congruence. }
    specialize (B G1 G2 idx n f off size (anew d, anew d)
      (fun '(h1, h2) => aval h1 d (lo Smin f off (size - 1)) /\ aval h2 d (hi Smax f off (size - 1)))).
    specialize (B Hi Hs Hn HN). cbn [fst snd] in B. unfold anew in B at 1 2. rewrite repeat_length in B.
    specialize (B eq_refl eq_refl). unfold box_loops in B. rewrite D in *.
    specialize (B (fun b1 b2 P Q => conj P Q)). apply rok_inv in B as ([h1 h2] & E & P1 & P2).
    destruct (rfor 0 d _ _) as [[a1 a2]|e]; [|discriminate E]. cbn [rbind] in E |- *.
    rewrite E. cbn.
    exists h1, h2, (lo Smin f off (size - 1)), (hi Smax f off (size - 1)).
    split; [reflexivity|]. split; [exact P1|]. split; [exact P2|].
    intros O i j Hii Hj. split; [apply (lo_le O); lia|apply (hi_ge O); lia].
  Qed.

  (** ** The partition loop *)
  Lemma rok_split (test : nat -> res bool) (b : nat -> bool) idx n f off size :
    iok idx n f off size -> (forall k, k < N -> test k = Ok (b k)) ->
    rok (split_idx test idx off size) (fun '(idx', size0, size1) => exists f',
      aval idx' n f' /\ size0 + size1 = size /\
      (forall i, ~ (off <= i < off + size) -> f' i = f i) /\
      Permutation (slice f off size) (slice f' off size) /\
      (forall i, off <= i < off + size0 -> b (f' i) = true) /\
      (forall i, off + size0 <= i < off + size -> b (f' i) = false)).
  Proof.
    intros (Hi & Hn & HN) Ht. unfold split_idx.
    eapply (rok_for (fun i '(idx', s0, s1) => exists f',
      aval idx' n f' /\ s0 + s1 = i /\
      (forall k, ~ (off <= k < off + i) -> f' k = f k) /\
      Permutation (slice f off size) (slice f' off size) /\
      (forall k, off <= k < off + s0 -> b (f' k) = true) /\
      (forall k, off + s0 <= k < off + i -> b (f' k) = false))).
    - exists f. repeat split; auto; try lia; apply Hi.
    - intros i [[idx' s0] s1] Hii (f' & V & E & O & P & T & F).
      rewrite (aval_get _ _ _ _ V) by lia. cbn [rbind].
      rewrite (O (off + i)) by lia. rewrite Ht by (apply HN; lia). cbn [rbind].
      destruct (b (f (off + i))) eqn:Eb.
      + rewrite (aval_get _ _ _ _ V) by lia. cbn [rbind].
        apply rok_bind. eapply rok_aset; [exact V|lia|]. intros i1 V1.
        apply rok_bind. eapply rok_aset; [exact V1|lia|]. intros i2 V2. cbn [rok].
        eexists. split; [exact V2|]. split; [lia|].
        assert (Q : forall k, afupd (afupd f' (off + i) (f' (off + s0))) (off + s0) (f (off + i)) k
                      = f' (transp (off + i) (off + s0) k)).
        { intros k. unfold afupd, transp. destruct (Nat.eqb_spec k (off + s0)), (Nat.eqb_spec k (off + i)); try reflexivity;
          rewrite O by lia; f_equal; lia. }
        split; [|split; [|split]].
        * intros k Hk. rewrite Q. unfold transp. bsplit; apply O; lia.
        * eapply Permutation_trans; [exact P|]. eapply swap_perm with (a := off + i) (b := off + s0); [lia|lia|exact Q].
        * intros k Hk. rewrite Q. unfold transp. bsplit.
          -- rewrite O by lia. replace (off + s0) with (off + i) by lia. exact Eb.
          -- rewrite O by lia. exact Eb.
          -- apply T. lia.
        * intros k Hk. rewrite Q. unfold transp. bsplit.
          -- apply F. lia.
          -- apply F. lia.
      + cbn [rok]. exists f'. split; [exact V|]. split; [lia|]. split; [|split; [exact P|split; [exact T|]]].
        * intros k Hk. apply O. lia.
        * intros k Hk. destruct (Nat.eq_dec k (off + i)) as [->|Ne]; [|apply F; lia].
          rewrite O by lia. exact Eb.
    - intros [[idx' s0] s1] (f' & V & E & O & P & T & F).
      exists f'. repeat split; auto; try lia; apply V.
  Qed.

  (** ** Finished trees *)
  Variables (clf : nat) (ad : bool).

  (** What is known about every cluster [s] of a finished tree.  Leaves have at
      most [clf] indices; for adaptive clustering ([ad]) larger leaves consist
      of coinciding points. *)
  Definition leafok (f : nat -> nat) (off size : nat) : Prop :=
    size <= clf \/ (ad = true /\ (ofield_laws K -> forall i i', off <= i < off + size ->
      off <= i' < off + size -> same_point d X (f i) (f i'))).

  Record cnode (f : nat -> nat) (s : cluster K) : Prop := CNode {
    cn_pos : 0 < c_size s;
    cn_tiles : c_sons s <> [] -> tiles (c_off s) (c_size s) (c_sons s);
    cn_desc : c_desc s = Some (length (nodes s));
    cn_dim : c_dim s = d;
    cn_box : exists B1 B2, aval (c_bmin s) d B1 /\ aval (c_bmax s) d B2 /\ bx f (c_off s) (c_size s) B1 B2;
    cn_leaf : c_sons s = [] -> leafok f (c_off s) (c_size s)
  }.

  Definition tok (f : nat -> nat) (off size : nat) (t : cluster K) : Prop :=
    c_off t = off /\ c_size t = size /\ forall s, In s (nodes t) -> cnode f s.

  Lemma cnode_ext f g s : cnode f s -> (forall i, c_off s <= i < c_off s + c_size s -> f i = g i) -> cnode g s.
  Proof.
    intros [A B C D (B1 & B2 & V1 & V2 & Bx) F] E. constructor; auto.
    - exists B1, B2. split; [exact V1|]. split; [exact V2|]. intros O i j Hi Hj.
      rewrite <- E by exact Hi. apply Bx; assumption.
    - intros L. destruct (F L) as [H|[H1 H2]]; [left; exact H|right; split; [exact H1|]].
      intros OL i i' Hi Hi'. rewrite <- !E by assumption. apply H2; assumption.
  Qed.

  Lemma tok_ext f g off size t : tok f off size t -> (forall i, off <= i < off + size -> f i = g i) -> tok g off size t.
  Proof.
    intros (A & B & C) E. split; [exact A|]. split; [exact B|]. intros s Hs.
    eapply cnode_ext; [apply C; exact Hs|]. intros i Hi. apply E.
    assert (H : forall s, In s (nodes t) -> c_sons s <> [] -> tiles (c_off s) (c_size s) (c_sons s)).
    { intros s' Hs'. apply (cn_tiles _ _ (C s' Hs')). }
    destruct (nodes_within t H s Hs). lia.
  Qed.

  (** A tree whose root still lacks [desc]. *)
  Definition pretok (f : nat -> nat) (off size : nat) (t : cluster K) : Prop :=
    exists l b1 b2 B1 B2, t = Cl size off l d b1 b2 None 0 /\ 0 < size /\
      aval b1 d B1 /\ aval b2 d B2 /\ bx f off size B1 B2 /\ (l <> [] -> tiles off size l) /\
      (forall s s', In s l -> In s' (nodes s) -> cnode f s') /\
      (l = [] -> leafok f off size).

  Lemma rfold_desc l n : (forall s : cluster K, In s l -> c_desc s = Some (length (nodes s))) ->
    rfold (fun s d => let* ds := get_desc s in Ok (d + ds)) l n = Ok (n + length (flat_map nodes l)).
  Proof.
    revert n. induction l as [|s l IH]; intros n H; cbn.
    - f_equal. lia.
    - unfold get_desc at 1. rewrite (H s (or_introl eq_refl)). cbn [rbind].
      rewrite IH by (intros; apply H; right; assumption). f_equal. rewrite app_length. lia.
  Qed.

  Lemma rok_update_cluster f off size t : pretok f off size t -> rok (update_cluster t) (tok f off size).
  Proof.
    intros (l & b1 & b2 & B1 & B2 & -> & Hs & V1 & V2 & Bx & T & C & L). unfold update_cluster.
    rewrite rfold_desc.
    2:{ intros s Hs'. apply (cn_desc _ _ (C s s Hs' (nodes_refl s))). }
    cbn. split; [reflexivity|]. split; [reflexivity|]. intros s Hs'.
    apply in_nodes in Hs' as [->|(c & Hc & Hs')]; [|apply (C c); assumption].
    constructor; cbn; auto. exists B1, B2. auto.
  Qed.

  Lemma rok_leaf_pre cf idx n f off size : gok cf -> iok idx n f off size -> 0 < size ->
    leafok f off size -> rok (leaf_cluster cf idx off size) (pretok f off size).
  Proof.
    intros G I Hs Hl. eapply rok_conseq; [eapply rok_leaf; eassumption|].
    intros t (b1 & b2 & B1 & B2 & -> & V1 & V2 & Bx).
    exists [], b1, b2, B1, B2. split; [reflexivity|]. split; [exact Hs|]. split; [exact V1|].
    split; [exact V2|]. split; [exact Bx|]. split; [intros H; contradiction H; reflexivity|].
    split; [intros s s' []|]. intros _. exact Hl.
  Qed.

  (** update_bbox_cluster computes the smallest box containing the boxes of the sons. *)
  Definition has_box (s : cluster K) (B1 B2 : nat -> K) : Prop := aval (c_bmin s) d B1 /\ aval (c_bmax s) d B2.

  Definition joined (l : list (cluster K)) (B1 B2 : nat -> K) : Prop :=
    (order_laws K -> forall s C1 C2 j, In s l -> has_box s C1 C2 -> j < d -> fle (B1 j) (C1 j) /\ fle (C2 j) (B2 j)) /\
    (forall j, j < d -> exists s C1 C2, In s l /\ has_box s C1 C2 /\ B1 j = C1 j) /\
    (forall j, j < d -> exists s C1 C2, In s l /\ has_box s C1 C2 /\ B2 j = C2 j).

  Lemma rok_update_bbox size off l b1 b2 dsc typ : l <> [] -> length b1 = d -> length b2 = d ->
    (forall s, In s l -> exists C1 C2, has_box s C1 C2) ->
    rok (update_bbox (Cl size off l d b1 b2 dsc typ)) (fun t => exists b1 b2 B1 B2,
      t = Cl size off l d b1 b2 dsc typ /\ aval b1 d B1 /\ aval b2 d B2 /\ joined l B1 B2).
  Proof.
    intros Hl L1 L2 HB. destruct l as [|s0 rest]; [contradiction|]. unfold update_bbox.
    destruct (HB s0 (or_introl eq_refl)) as (C1 & C2 & V1 & V2).
    apply rok_bind.
    eapply (rok_for (fun j '(h1, h2) => aprt h1 d (fun k => k < j) C1 /\ aprt h2 d (fun k => k < j) C2)).
    { split; (split; [assumption|intros; lia]). }
    { intros j [h1 h2] Hj [H1 H2]. rewrite (aval_get _ _ _ _ V1) by lia. cbn [rbind].
      apply rok_bind. eapply rok_aset_prt; [exact H1|lia|]. intros h1' H1'.
      rewrite (aval_get _ _ _ _ V2) by lia. cbn [rbind].
      apply rok_bind. eapply rok_aset_prt; [exact H2|lia|]. intros h2' H2'. cbn.
      split; (eapply aprt_ext; [eassumption| |]; cbn; unfold afupd; intros k Hk Hk2; [lia|]; bsplit; subst; reflexivity). }
    intros [h1 h2] [H1 H2]. cbn [Nat.add] in *.
    assert (A1 : aval h1 d C1) by (eapply aprt_aval; [|exact H1]; cbn; lia).
    assert (A2 : aval h2 d C2) by (eapply aprt_aval; [|exact H2]; cbn; lia).
    assert (J : joined [s0] C1 C2).
    { split; [|split].
      - intros O s D1 D2 j [<-|[]] [W1 W2] Hj.
        assert (D1 j = C1 j).
        { pose proof (aval_get _ _ _ _ W1 Hj) as E. rewrite (aval_get _ _ _ _ V1 Hj) in E. congruence. }
        assert (D2 j = C2 j).
        { pose proof (aval_get _ _ _ _ W2 Hj) as E. rewrite (aval_get _ _ _ _ V2 Hj) in E. congruence. }
        rewrite H, H0. split; apply (ole_refl O).
      - intros j Hj. exists s0, C1, C2. cbn. repeat split; auto; first [apply V1|apply V2].
      - intros j Hj. exists s0, C1, C2. cbn. repeat split; auto; first [apply V1|apply V2]. }
    assert (HR : forall s, In s rest -> exists C1 C2, has_box s C1 C2) by (intros; apply HB; right; assumption).
    change (s0 :: rest) with ([s0] ++ rest). revert J A1 A2 HR. generalize [s0] as done.
    clear H1 H2 V1 V2 HB Hl. revert h1 h2 C1 C2.
    induction rest as [|s rest IH]; intros h1 h2 C1 C2 done J A1 A2 HR.
    { cbn. exists h1, h2, C1, C2. rewrite app_nil_r. auto. }
    cbn [rfold]. apply rok_bind. apply rok_bind.
    destruct (HR s (or_introl eq_refl)) as (D1 & D2 & V1 & V2).
    eapply (rok_for (fun j '(h1, h2) =>
       aval h1 d (fun k => if k <? j then fmin (C1 k) (D1 k) else C1 k) /\
       aval h2 d (fun k => if k <? j then fmax (C2 k) (D2 k) else C2 k))).
    { split; assumption. }
    { clear h1 h2 A1 A2. intros j [h1 h2] Hj [H1 H2].
      rewrite (aval_get _ _ _ _ H1) by lia. cbn [rbind]. rewrite Nat.ltb_irrefl.
      rewrite (aval_get _ _ _ _ V1) by lia. cbn [rbind].
      apply rok_bind. eapply rok_aset; [exact H1|lia|]. intros h1' H1'.
      rewrite (aval_get _ _ _ _ H2) by lia. cbn [rbind]. rewrite Nat.ltb_irrefl.
      rewrite (aval_get _ _ _ _ V2) by lia. cbn [rbind].
      apply rok_bind. eapply rok_aset; [exact H2|lia|]. intros h2' H2'. cbn.
      split; (eapply aval_ext; [eassumption|]; cbn; unfold afupd; intros k Hk; bsplit; subst; reflexivity). }
    clear h1 h2 A1 A2. intros [h1 h2] [H1 H2]. cbn [Nat.add] in *.
    assert (A1 : aval h1 d (fun k => fmin (C1 k) (D1 k)))
      by (eapply aval_ext; [exact H1|]; cbn; intros; bsplit; reflexivity).
    assert (A2 : aval h2 d (fun k => fmax (C2 k) (D2 k)))
      by (eapply aval_ext; [exact H2|]; cbn; intros; bsplit; reflexivity).
    assert (J2 : joined (done ++ [s]) (fun k => fmin (C1 k) (D1 k)) (fun k => fmax (C2 k) (D2 k))).
    { destruct J as (J1 & J2 & J3). split; [|split].
      - intros O x E1 E2 j Hx HE Hj. apply in_app_iff in Hx as [Hx|[<-|[]]].
        + destruct (J1 O x E1 E2 j Hx HE Hj). split.
          * eapply (ole_trans O); [apply (fmin_l O)|assumption].
          * eapply (ole_trans O); [eassumption|apply (fmax_l O)].
        + destruct HE as [W1 W2]. assert (E1 j = D1 j).
          { pose proof (aval_get _ _ _ _ W1 Hj) as E. rewrite (aval_get _ _ _ _ V1 Hj) in E. congruence. }
          assert (E2 j = D2 j).
          { pose proof (aval_get _ _ _ _ W2 Hj) as E. rewrite (aval_get _ _ _ _ V2 Hj) in E. congruence. }
          rewrite H, H0. split; [apply (fmin_r O)|apply (fmax_r O)].
      - intros j Hj. unfold fmin. destruct (flt _ _).
        + destruct (J2 j Hj) as (x & E1 & E2 & Hx & HE & E). exists x, E1, E2.
          rewrite in_app_iff. repeat split; auto; apply HE.
        + exists s, D1, D2. rewrite in_app_iff. cbn. repeat split; auto; first [apply V1|apply V2].
      - intros j Hj. unfold fmax. destruct (flt _ _).
        + exists s, D1, D2. rewrite in_app_iff. cbn. repeat split; auto; first [apply V1|apply V2].
        + destruct (J3 j Hj) as (x & E1 & E2 & Hx & HE & E). exists x, E1, E2.
          rewrite in_app_iff. repeat split; auto; apply HE. }
    specialize (IH h1 h2 _ _ (done ++ [s]) J2 A1 A2 (fun s' Hs' => HR s' (or_intror Hs'))).
    rewrite <- app_assoc in IH. cbn [app] in IH.
    destruct (rfold _ rest (h1, h2)) as [[a1 a2]|e]; exact IH.
  Qed.

  Lemma tiles_point l : forall off size i, tiles off size l -> off <= i < off + size ->
    exists s, In s (l : list (cluster K)) /\ c_off s <= i < c_off s + c_size s.
  Proof.
    induction l as [|s l IH]; intros off size i H Hi; cbn in H; [lia|].
    destruct H as (H1 & H2 & H3). destruct (Nat.lt_ge_cases i (off + c_size s)) as [Hlt|Hge].
    - exists s. split; [left; reflexivity|lia].
    - destruct (IH _ _ i H3 ltac:(lia)) as (s' & Hin & Hr). exists s'. split; [right; exact Hin|exact Hr].
  Qed.

  Lemma rok_join f off size l : l <> [] -> 0 < size -> tiles off size l ->
    (forall s s', In s l -> In s' (nodes s) -> cnode f s') ->
    rok (update_bbox (new_cluster size off l d)) (pretok f off size).
  Proof.
    intros Hl Hs T C. unfold new_cluster.
    assert (HB : forall s, In s l -> exists C1 C2, has_box s C1 C2).
    { intros s Hs'. destruct (cn_box _ _ (C s s Hs' (nodes_refl s))) as (B1 & B2 & V1 & V2 & _).
      exists B1, B2. split; assumption. }
    eapply rok_conseq; [apply rok_update_bbox; auto; apply repeat_length|].
    intros t (b1 & b2 & B1 & B2 & -> & V1 & V2 & J). exists l, b1, b2, B1, B2.
    split; [reflexivity|]. split; [exact Hs|]. split; [exact V1|]. split; [exact V2|].
    split; [|split; [intros _; exact T|split; [exact C|contradiction]]].
    intros O i j Hi Hj. destruct (tiles_point l off size i T Hi) as (s & Hin & Hr).
    destruct (cn_box _ _ (C s s Hin (nodes_refl s))) as (C1 & C2 & W1 & W2 & Bx).
    destruct (Bx O i j Hr Hj) as [X1 X2].
    destruct (proj1 J O s C1 C2 j Hin (conj W1 W2) Hj) as [Y1 Y2].
    split; eapply (ole_trans O); eassumption.
  Qed.
End Build.
