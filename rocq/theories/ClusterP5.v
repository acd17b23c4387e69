(** * Proofs about restructuring cluster trees *)
From Coq Require Import Arith Lia List Bool Permutation.
From Verif Require Import Fld Ord Prog Arr Loop Cluster ClusterSpec ClusterP ClusterP4.
Import ListNotations.

Lemma rok_rmap {A B} (f : A -> res B) (R : A -> B -> Prop) l :
  (forall x, In x l -> rok (f x) (R x)) -> rok (rmap f l) (Forall2 R l).
Proof.
  induction l as [|x l IH]; intros H; cbn [rmap]; [constructor|].
  apply rok_bind. eapply rok_conseq; [apply H; left; reflexivity|]. intros y Hy.
  apply rok_bind. eapply rok_conseq; [apply IH; intros; apply H; right; assumption|]. intros ys Hys.
  constructor; assumption.
Qed.

Lemma Forall2_impl {A B} (P Q : A -> B -> Prop) l l' : (forall a b, P a b -> Q a b) -> Forall2 P l l' -> Forall2 Q l l'.
Proof. intros H. induction 1; constructor; auto. Qed.

Section Adapt.
  Context {K : ofops}.
  Implicit Types t s c : cluster K.

  Lemma same_extent_refl t : same_extent t t.
  Proof. repeat split; auto; apply H. Qed.
  Lemma same_extent_trans t s c : same_extent t s -> same_extent s c -> same_extent t c.
  Proof.
    intros (A1 & A2 & A3 & A4 & A5) (B1 & B2 & B3 & B4 & B5).
    split; [congruence|]. split; [congruence|]. split; [congruence|]. rewrite A3 in *. split; auto.
  Qed.

  Lemma tiles_same : forall l l' : list (cluster K), Forall2 same_extent l l' -> forall off size, tiles off size l -> tiles off size l'.
  Proof.
    induction 1 as [|s s' l l' Hs Hl IH]; intros off size T; cbn in *; [exact T|].
    destruct Hs as (E1 & E2 & _). destruct T as (T1 & T2 & T3). rewrite E1, E2. auto.
  Qed.

  Lemma indices_app (f : nat -> nat) l : forall off size, tiles (K:=K) off size l ->
    flat_map (indices f) l = slice f off size.
  Proof.
    induction l as [|s l IH]; intros off size T; cbn in *.
    - subst. reflexivity.
    - destruct T as (T1 & T2 & T3). rewrite (IH _ _ T3). unfold indices. rewrite T1, <- slice_app.
      f_equal. lia.
  Qed.

  Lemma leaves_eq t : leaves t = match c_sons t with [] => [t] | l => flat_map leaves l end.
  Proof. destruct t as [? ? [|] ? ? ? ? ?]; reflexivity. Qed.

  (** The leaves of a partition tree hold the indices of the root, in order. *)
  Lemma leaves_indices (f : nat -> nat) t : partition_tree t -> flat_map (indices f) (leaves t) = indices f t.
  Proof.
    induction t as [size off sons dim b1 b2 ds typ IH] using cluster_rect'. intros P.
    rewrite leaves_eq. cbn [c_sons]. destruct sons as [|s0 sons]; [cbn; apply app_nil_r|].
    set (l := s0 :: sons) in *.
    assert (T : tiles off size l) by (apply (proj2 (P _ (nodes_refl _))); discriminate).
    rewrite <- (indices_app f l off size T : _ = indices f (Cl size off l dim b1 b2 ds typ)).
    assert (P' : forall c, In c l -> partition_tree c).
    { intros c Hc. eapply part_sub; [exact P|exact Hc]. }
    clear P T. clearbody l. induction IH as [|c l' Hc Hl IHl]; [reflexivity|].
    cbn [flat_map]. rewrite flat_map_app, Hc by (apply P'; left; reflexivity). f_equal. apply IHl.
    intros; apply P'; right; assumption.
  Qed.

  Lemma in_sons t c : In c (c_sons t) -> In c (nodes t).
  Proof. intros H. rewrite in_nodes. right. exists c. split; [exact H|apply nodes_refl]. Qed.

  (** update_cluster on a node whose sons are in order. *)
  Lemma rok_node size off l l' dim b1 b2 ds typ :
    let t := Cl size off l dim b1 b2 ds typ in
    0 < size -> (exists B1 B2, aval b1 dim B1 /\ aval b2 dim B2) ->
    (l' <> [] -> tiles off size l') ->
    (forall s', In s' l' -> partition_tree s' /\ desc_ok s' /\ boxes_ok s' /\
       forall s'', In s'' (nodes s') -> exists s, In s (nodes t) /\ same_extent s s'') ->
    rok (update_cluster (Cl size off l' dim b1 b2 ds typ))
      (fun t' => restructured t t' /\ exists ds', t' = Cl size off l' dim b1 b2 ds' typ).
  Proof.
    intros t Hs HB HT HF. cbn [update_cluster]. rewrite rfold_desc.
    2:{ intros s Hin. destruct (HF s Hin) as (_ & D & _). apply D. apply nodes_refl. }
    cbn [rbind rok]. set (t' := Cl size off l' dim b1 b2 _ typ).
    split; [|eexists; reflexivity].
    assert (SE : same_extent t t') by (split; [|split; [|split; [|split]]]; auto).
    constructor.
    - exact SE.
    - intros s Hin. apply in_nodes in Hin as [->|(c & Hc & Hin)].
      + split; [exact Hs|exact HT].
      + destruct (HF c Hc) as (P & _). apply P. exact Hin.
    - intros s Hin. apply in_nodes in Hin as [->|(c & Hc & Hin)].
      + reflexivity.
      + destruct (HF c Hc) as (_ & D & _). apply D. exact Hin.
    - intros s Hin. apply in_nodes in Hin as [->|(c & Hc & Hin)].
      + exact HB.
      + destruct (HF c Hc) as (_ & _ & B & _). apply B. exact Hin.
    - intros s Hin. apply in_nodes in Hin as [->|(c & Hc & Hin)].
      + exists t. split; [apply nodes_refl|exact SE].
      + destruct (HF c Hc) as (_ & _ & _ & R). apply R. exact Hin.
  Qed.

  Lemma forall2_in {A B} (R : A -> B -> Prop) l l' y : Forall2 R l l' -> In y l' -> exists x, In x l /\ R x y.
  Proof.
    induction 1 as [|x y' l l' Hx Hl IH]; intros Hy; [destruct Hy|].
    destruct Hy as [<-|Hy]; [exists x; split; [left; reflexivity|exact Hx]|].
    destruct (IH Hy) as (x' & H1 & H2). exists x'. split; [right; exact H1|exact H2].
  Qed.

  (** The common case: the sons are restructured one by one. *)
  Lemma rok_sons size off l dim b1 b2 ds typ l' :
    let t := Cl size off l dim b1 b2 ds typ in
    partition_tree t -> boxes_ok t -> l <> [] -> Forall2 restructured l l' ->
    rok (update_cluster (Cl size off l' dim b1 b2 ds typ))
      (fun t' => restructured t t' /\ exists ds', t' = Cl size off l' dim b1 b2 ds' typ).
  Proof.
    intros t P B Hl F. apply rok_node.
    - apply (P t (nodes_refl t)).
    - apply (B t (nodes_refl t)).
    - intros _. eapply tiles_same; [|apply (proj2 (P t (nodes_refl t))); exact Hl].
      eapply Forall2_impl; [|exact F]. intros a b [R _ _ _ _]. exact R.
    - intros s' Hs'. destruct (forall2_in _ _ _ _ F Hs') as (s & Hs & [R1 R2 R3 R4 R5]).
      split; [exact R2|]. split; [exact R3|]. split; [exact R4|].
      intros s'' Hs''. destruct (R5 s'' Hs'') as (s1 & H1 & H2). exists s1. split; [|exact H2].
      rewrite in_nodes. right. exists s. split; assumption.
  Qed.

  (** Depth of a node. *)
  Lemma getdepth_sons size off s0 l dim b1 b2 ds typ :
    getdepth (K:=K) (Cl size off (s0 :: l) dim b1 b2 ds typ)
    = S (fold_left (fun m s => Nat.max (getdepth s) m) l (getdepth s0)).
  Proof. cbn [getdepth fold_left]. rewrite Nat.max_0_r. reflexivity. Qed.

  Lemma depth_map (g : cluster K -> nat) (h : nat -> nat) (op : nat -> nat -> nat) l l' :
    (forall x y, op (h x) (h y) = h (op x y)) ->
    Forall2 (fun s s' => g s' = h (g s)) l l' -> forall a,
    fold_left (fun m s => op (g s) m) l' (h a) = h (fold_left (fun m s => op (g s) m) l a).
  Proof.
    intros Hh F. induction F as [|s s' l l' E F IH]; intros a; cbn [fold_left]; [reflexivity|].
    rewrite E, Hh. apply IH.
  Qed.

  Definition depths (h : nat -> nat) (s s' : cluster K) : Prop :=
    getdepth s' = h (getdepth s) /\ getmindepth s' = h (getmindepth s).

  Lemma depths_sons (h h' : nat -> nat) size off l dim b1 b2 ds typ l' ds' :
    l <> [] -> (forall x y, Nat.max (h x) (h y) = h (Nat.max x y)) -> (forall x y, Nat.min (h x) (h y) = h (Nat.min x y)) ->
    (forall x, h' (S x) = S (h x)) -> Forall2 (depths h) l l' ->
    depths h' (Cl size off l dim b1 b2 ds typ) (Cl size off l' dim b1 b2 ds' typ).
  Proof.
    intros Hl H1 H2 H3 F. destruct F as [|s s' l l' [E1 E2] F]; [contradiction Hl; reflexivity|]. split.
    - rewrite !getdepth_sons, H3. f_equal. rewrite E1. apply (depth_map getdepth h Nat.max); [exact H1|].
      eapply Forall2_impl; [|exact F]. intros a b [A _]. exact A.
    - cbn [getmindepth]. rewrite H3. f_equal. rewrite E2. apply (depth_map getmindepth h Nat.min); [exact H2|].
      eapply Forall2_impl; [|exact F]. intros a b [_ A]. exact A.
  Qed.

  Lemma restructured_trans_extent t s s' : same_extent t s -> restructured s s' ->
    (forall x, In x (nodes s) -> same_extent t x) ->
    forall x, In x (nodes s') -> same_extent t x.
  Proof.
    intros E [_ _ _ _ R] H x Hx. destruct (R x Hx) as (y & Hy & Hyx). eapply same_extent_trans; [apply H; exact Hy|exact Hyx].
  Qed.

  Lemma forall2_and {A B} (P Q : A -> B -> Prop) l l' : Forall2 (fun x y => P x y /\ Q x y) l l' ->
    Forall2 P l l' /\ Forall2 Q l l'.
  Proof. induction 1 as [|x y l l' [H1 H2] F [I1 I2]]; split; constructor; assumption. Qed.

  (** A leaf. *)
  Lemma leaf_restructured size off dim b1 b2 ds typ :
    let t := Cl size off [] dim b1 b2 ds typ in
    0 < size -> (exists B1 B2, aval b1 dim B1 /\ aval b2 dim B2) ->
    rok (update_cluster t) (fun t' => restructured t t' /\ exists ds', t' = Cl size off [] dim b1 b2 ds' typ).
  Proof.
    intros t Hs HB. unfold t. apply rok_node; auto.
    - intros H. contradiction H. reflexivity.
    - intros s' [].
  Qed.

  Lemma rok_extend_leaf depth : forall size off dim b1 b2 ds typ,
    let t := Cl size off [] dim b1 b2 ds typ in
    0 < size -> (exists B1 B2, aval b1 dim B1 /\ aval b2 dim B2) ->
    rok (extend_leaf depth t) (fun t' => restructured t t' /\ getdepth t' = depth /\ getmindepth t' = depth).
  Proof.
    induction depth as [|depth IH]; intros size off dim b1 b2 ds typ t Hs HB; cbn [extend_leaf].
    - eapply rok_conseq; [apply leaf_restructured; assumption|]. intros t' [R (ds' & ->)].
      split; [exact R|]. split; reflexivity.
    - destruct HB as (B1 & B2 & V1 & V2). cbn [c_dim c_bmin c_bmax c_size c_off t].
      apply rok_bind.
      eapply (rok_for (fun j '(h1, h2) => aprt h1 dim (fun k => k < j) B1 /\ aprt h2 dim (fun k => k < j) B2)).
      { split; (split; [apply repeat_length|intros; lia]). }
      { intros j [h1 h2] Hj [A1 A2]. rewrite (aval_get _ _ _ _ V1) by lia. cbn [rbind].
        apply rok_bind. eapply rok_aset_prt; [exact A1|lia|]. intros h1' A1'.
        rewrite (aval_get _ _ _ _ V2) by lia. cbn [rbind].
        apply rok_bind. eapply rok_aset_prt; [exact A2|lia|]. intros h2' A2'. cbn.
        split; (eapply aprt_ext; [eassumption| |]; cbn; unfold afupd; intros k Hk Hk2; [lia|]; bsplit; subst; reflexivity). }
      intros [h1 h2] [A1 A2].
      assert (W1 : aval h1 dim B1) by (eapply aprt_aval; [|eassumption]; cbn; lia).
      assert (W2 : aval h2 dim B2) by (eapply aprt_aval; [|eassumption]; cbn; lia).
      apply rok_bind. eapply rok_conseq; [apply (IH size off dim h1 h2 None 0); eauto|].
      intros s [R [D1 D2]]. unfold with_sons.
      assert (SE : same_extent t (Cl size off [] dim h1 h2 None 0)).
      { split; [reflexivity|]. split; [reflexivity|]. split; [reflexivity|]. split; cbn; intros B HB; (split; [apply W1 || apply W2|]).
        - intros i Hi. rewrite (proj2 W1) by exact Hi. rewrite <- (proj2 V1) by exact Hi. apply HB. exact Hi.
        - intros i Hi. rewrite (proj2 W2) by exact Hi. rewrite <- (proj2 V2) by exact Hi. apply HB. exact Hi. }
      eapply rok_conseq; [eapply (rok_node size off [] [s] dim b1 b2 ds typ); eauto|].
      + intros _. destruct R as [(E1 & E2 & _) _ _ _ _]. cbn in *. rewrite E1, E2. repeat split; lia.
      + intros s' [<-|[]]. pose proof R as [R1 R2 R3 R4 R5]. split; [exact R2|]. split; [exact R3|]. split; [exact R4|].
        intros s'' Hs''. exists t. split; [apply nodes_refl|].
        eapply restructured_trans_extent; [exact SE|exact R| |exact Hs''].
        intros x Hx. rewrite in_nodes in Hx. destruct Hx as [->|(c & [] & _)]. exact SE.
      + intros t' [R' (ds' & ->)]. split; [exact R'|]. cbn. rewrite Nat.max_0_r. auto.
  Qed.

  Lemma update_same t : partition_tree t -> boxes_ok t -> desc_ok t ->
    rok (update_cluster t) (fun t' => restructured t t' /\ getdepth t' = getdepth t /\ getmindepth t' = getmindepth t).
  Proof.
    destruct t as [size off l dim b1 b2 ds typ]. intros P B D. set (t := Cl size off l dim b1 b2 ds typ) in *.
    eapply rok_conseq; [apply (rok_node size off l l dim b1 b2 ds typ)|].
    - apply (P t (nodes_refl t)).
    - apply (B t (nodes_refl t)).
    - apply (P t (nodes_refl t)).
    - intros s Hs. split; [eapply part_sub; eauto|]. split; [eapply desc_sub; eauto|]. split; [eapply boxes_sub; eauto|].
      intros s'' Hs''. exists s''. split; [|apply same_extent_refl]. rewrite in_nodes. right. exists s. auto.
    - intros t' [R (ds' & ->)]. split; [exact R|]. split; reflexivity.
  Qed.

  Lemma max_max x y d : Nat.max (Nat.max x d) (Nat.max y d) = Nat.max (Nat.max x y) d.
  Proof. lia. Qed.

  Lemma rok_extend t : forall depth, partition_tree t -> boxes_ok t -> desc_ok t ->
    rok (extend_cluster t depth) (fun t' => restructured t t' /\ depths (fun l => Nat.max l depth) t t').
  Proof.
    induction t as [size off sons dim b1 b2 ds typ IH] using cluster_rect'. intros depth P B D.
    set (t := Cl size off sons dim b1 b2 ds typ) in *. rewrite Forall_forall in IH.
    destruct sons as [|s0 sons].
    - cbn [extend_cluster t]. eapply rok_conseq; [apply rok_extend_leaf|].
      + apply (P t (nodes_refl t)).
      + apply (B t (nodes_refl t)).
      + intros t' (R & E1 & E2). split; [exact R|]. split; cbn; lia.
    - destruct depth as [|depth]; cbn [extend_cluster t].
      + eapply rok_conseq; [apply update_same; assumption|]. intros t' (R & E1 & E2).
        split; [exact R|]. split; [rewrite E1|rewrite E2]; rewrite Nat.max_0_r; reflexivity.
      + set (l := s0 :: sons) in *. apply rok_bind.
        eapply rok_conseq; [apply rok_rmap with (R := fun s s' => restructured s s' /\ depths (fun l => Nat.max l depth) s s')|].
        { intros s Hs. apply (IH s Hs); [eapply part_sub|eapply boxes_sub|eapply desc_sub]; eauto. }
        intros l' F. apply forall2_and in F as [F1 F2].
        eapply rok_conseq; [eapply rok_sons; [exact P|exact B|discriminate|exact F1]|].
        intros t' [R (ds' & ->)]. split; [exact R|].
        eapply depths_sons; [discriminate| | | |exact F2]; intros; cbn; lia.
  Qed.

  Lemma rok_cut t : forall depth, partition_tree t -> boxes_ok t ->
    rok (cut_cluster t depth) (fun t' => restructured t t' /\ depths (fun l => Nat.min l depth) t t').
  Proof.
    induction t as [size off sons dim b1 b2 ds typ IH] using cluster_rect'. intros depth P B.
    set (t := Cl size off sons dim b1 b2 ds typ) in *. rewrite Forall_forall in IH.
    destruct sons as [|s0 sons].
    - cbn [cut_cluster t]. eapply rok_conseq; [apply leaf_restructured|].
      + apply (P t (nodes_refl t)).
      + apply (B t (nodes_refl t)).
      + intros t' (R & ds' & ->). split; [exact R|]. split; cbn; lia.
    - destruct depth as [|depth]; cbn [cut_cluster t].
      + eapply rok_conseq; [apply (rok_node size off (s0 :: sons) [])|].
        * apply (P t (nodes_refl t)).
        * apply (B t (nodes_refl t)).
        * intros H. contradiction H. reflexivity.
        * intros s [].
        * intros t' (R & ds' & ->). split; [exact R|]. split; cbn; lia.
      + set (l := s0 :: sons) in *. apply rok_bind.
        eapply rok_conseq; [apply rok_rmap with (R := fun s s' => restructured s s' /\ depths (fun l => Nat.min l depth) s s')|].
        { intros s Hs. apply (IH s Hs); [eapply part_sub|eapply boxes_sub]; eauto. }
        intros l' F. apply forall2_and in F as [F1 F2].
        eapply rok_conseq; [eapply rok_sons; [exact P|exact B|discriminate|exact F1]|].
        intros t' [R (ds' & ->)]. split; [exact R|].
        eapply depths_sons; [discriminate| | | |exact F2]; intros; cbn; lia.
  Qed.

  Lemma restructured_trans t s c : restructured t s -> restructured s c -> restructured t c.
  Proof.
    intros [A1 A2 A3 A4 A5] [B1 B2 B3 B4 B5]. constructor; auto.
    - eapply same_extent_trans; eassumption.
    - intros x Hx. destruct (B5 x Hx) as (y & Hy & E). destruct (A5 y Hy) as (z & Hz & E').
      exists z. split; [exact Hz|eapply same_extent_trans; eassumption].
  Qed.

  Lemma rok_balance t : forall depth, partition_tree t -> boxes_ok t ->
    rok (balance_cluster t depth) (fun t' => restructured t t' /\ depths (fun _ => depth) t t').
  Proof.
    induction t as [size off sons dim b1 b2 ds typ IH] using cluster_rect'. intros depth P B.
    set (t := Cl size off sons dim b1 b2 ds typ) in *. rewrite Forall_forall in IH.
    assert (Hs : 0 < size) by apply (P t (nodes_refl t)).
    assert (HB := B t (nodes_refl t)).
    destruct sons as [|s0 sons].
    - destruct depth as [|depth]; cbn [balance_cluster t].
      + eapply rok_conseq; [apply leaf_restructured; assumption|]. intros t' (R & ds' & ->). split; [exact R|]. split; reflexivity.
      + apply rok_bind. eapply rok_conseq; [apply (rok_extend_leaf (S depth)); assumption|].
        intros t1 (R1 & E1 & E2). eapply rok_conseq; [apply update_same; apply R1|].
        intros t2 (R2 & E3 & E4). split; [eapply restructured_trans; eassumption|]. split; congruence.
    - destruct depth as [|depth]; cbn [balance_cluster t].
      + apply rok_bind. eapply rok_conseq; [apply (rok_cut t 0); assumption|].
        intros t1 (R1 & E1 & E2). eapply rok_conseq; [apply update_same; apply R1|].
        intros t2 (R2 & E3 & E4). split; [eapply restructured_trans; eassumption|].
        rewrite Nat.min_0_r in *. split; congruence.
      + set (l := s0 :: sons) in *. apply rok_bind.
        eapply rok_conseq; [apply rok_rmap with (R := fun s s' => restructured s s' /\ depths (fun _ => depth) s s')|].
        { intros s Hs'. apply (IH s Hs'); [eapply part_sub|eapply boxes_sub]; eauto. }
        intros l' F. apply forall2_and in F as [F1 F2].
        eapply rok_conseq; [eapply rok_sons; [exact P|exact B|discriminate|exact F1]|].
        intros t' [R (ds' & ->)]. split; [exact R|].
        eapply depths_sons; [discriminate| | | |exact F2]; intros; cbn; lia.
  Qed.

  (** coarsen_cluster keeps the sons of a cluster exactly if all of them are large enough. *)
  Definition small_son (m : nat) t : Prop := exists c, In c (c_sons t) /\ c_size c < m.
  Definition coarsened (m : nat) t t' : Prop :=
    forall s', In s' (nodes t') -> exists s, In s (nodes t) /\ same_extent s s' /\
      (c_sons s' = [] <-> c_sons s = [] \/ small_son m s) /\
      (c_sons s' <> [] -> Forall2 same_extent (c_sons s) (c_sons s')).

  Lemma rok_coarsen m t : partition_tree t -> boxes_ok t ->
    rok (coarsen_cluster t m) (fun t' => restructured t t' /\ coarsened m t t').
  Proof.
    induction t as [size off sons dim b1 b2 ds typ IH] using cluster_rect'. intros P B.
    set (t := Cl size off sons dim b1 b2 ds typ) in *. rewrite Forall_forall in IH.
    assert (Hs : 0 < size) by apply (P t (nodes_refl t)).
    assert (HB := B t (nodes_refl t)). cbn [coarsen_cluster t].
    destruct (existsb _ sons) eqn:E.
    - apply existsb_exists in E as (c & Hc & E). apply Nat.ltb_lt in E.
      eapply rok_conseq; [apply (rok_node size off sons []); auto|].
      + intros H. contradiction H. reflexivity.
      + intros s [].
      + intros t' (R & ds' & ->). split; [exact R|]. intros s' Hs'. apply in_nodes in Hs' as [->|(x & [] & _)].
        exists t. split; [apply nodes_refl|]. split; [apply R|]. split.
        * split; [intros _; right; exists c; split; assumption|reflexivity].
        * intros H. contradiction H. reflexivity.
    - assert (NS : ~ small_son m t).
      { intros (c & Hc & Lt). assert (existsb (fun s => c_size s <? m) sons = true); [|congruence].
        apply existsb_exists. exists c. split; [exact Hc|apply Nat.ltb_lt; exact Lt]. }
      apply rok_bind.
      eapply rok_conseq; [apply rok_rmap with (R := fun s s' => restructured s s' /\ coarsened m s s')|].
      { intros s Hs'. apply (IH s Hs'); [eapply part_sub|eapply boxes_sub]; eauto. }
      intros l' F. apply forall2_and in F as [F1 F2].
      assert (FE : Forall2 same_extent sons l') by (eapply Forall2_impl; [|exact F1]; intros a b [A _ _ _ _]; exact A).
      assert (U : rok (update_cluster (Cl size off l' dim b1 b2 ds typ))
         (fun t' => restructured t t' /\ exists ds', t' = Cl size off l' dim b1 b2 ds' typ)).
      { destruct sons as [|s0 sons].
        - inversion F1; subst. apply (leaf_restructured size off dim b1 b2 ds typ); assumption.
        - eapply rok_sons; [exact P|exact B|discriminate|exact F1]. }
      eapply rok_conseq; [exact U|]. intros t' [R (ds' & ->)]. split; [exact R|].
      intros s' Hs'. apply in_nodes in Hs' as [->|(c' & Hc' & Hs')].
      + exists t. split; [apply nodes_refl|]. split; [apply R|]. cbn [c_sons]. split; [|intros _; exact FE].
        split.
        * intros ->. inversion FE; subst. left. reflexivity.
        * intros [E0|E0]; [|contradiction]. change (c_sons t) with sons in E0. rewrite E0 in FE. inversion FE. reflexivity.
      + destruct (forall2_in _ _ _ _ F2 Hc') as (c & Hc & CC). destruct (CC s' Hs') as (s & Hs2 & REST).
        exists s. split; [|exact REST]. rewrite in_nodes. right. exists c. split; assumption.
  Qed.
End Adapt.
