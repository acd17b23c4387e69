(** * Proofs about the block construction functions *)
From Coq Require Import Arith Lia List Bool Permutation.
From Verif Require Import Fld Ord Prog Arr Loop Cluster ClusterSpec ClusterP ClusterP4 ClusterP5 Block BlockSpec BlockP.
Import ListNotations.

Section Build.
Context {K : ofops}.
Implicit Types (b s x : block K) (t : cluster K) (p rc cc r c : cptr K).

Lemma depth_son t (s : cluster K) : In s (c_sons t) -> getdepth s < getdepth t.
Proof.
  destruct t as [size off sons dim b1 b2 ds typ]. cbn [c_sons]. intros H.
  destruct sons as [|s0 sons]; [destruct H|]. cbn [getdepth]. set (l := s0 :: sons) in *.
  destruct (fold_max getdepth l 0) as (_ & _ & C). specialize (C s H). lia.
Qed.

Definition gof (d : block K) (f : nat -> nat -> res (block K)) i j : block K := match f i j with Ok b => b | Err _ => d end.

Lemma splitting_ne p l : splitting p l -> l <> [].
Proof.
  intros [->|[N ->]]; [discriminate|]. intros E. apply N. rewrite <- (cp_split_map p), E. reflexivity.
Qed.

(** What a construction promises about its result. *)
Definition made (P : block K -> Prop) rc cc b : Prop :=
  b_rc b = rc /\ b_cc b = cc /\ block_tree b /\ forall x, In x (bnodes b) -> P x.

Lemma leaf_ok (P : block K -> Prop) rc cc a : P (Blk rc cc a 0 0 [] (Some 1)) -> rok (update_block (new_block rc cc a 0 0)) (made P rc cc).
Proof.
  intros H. cbn. split; [reflexivity|]. split; [reflexivity|]. split.
  - intros s [<-|[]]. split; [reflexivity|]. left. auto.
  - intros x [<-|[]]. exact H.
Qed.

Lemma update_leaf rc cc a : update_block (new_block rc cc a 0 0) = Ok (Blk rc cc a 0 0 [] (Some 1)).
Proof. reflexivity. Qed.

Lemma node_ok (P : block K -> Prop) rc cc a R C d (f : nat -> nat -> res (block K)) :
  splitting rc R -> splitting cc C -> ~ (R = [rc] /\ C = [cc]) ->
  (forall i j r c, nth_error R i = Some r -> nth_error C j = Some c -> rok (f i j) (made P r c)) ->
  (forall son ds, son <> [] -> (forall i j s, i < length R -> nth_error son (i + j * length R) = Some (Some s) -> nth_error R i = Some (b_rc s) /\ nth_error C j = Some (b_cc s)) ->
     P (Blk rc cc a (length R) (length C) son ds)) ->
  let G := gridl (length R) (length C) (gof d f) in
  (forall i j, i < length R -> j < length C -> f i j = Ok (gof d f i j)) /\
  update_block (Blk rc cc a (length R) (length C) (map Some G) None) =
    Ok (Blk rc cc a (length R) (length C) (map Some G) (Some (S (length (flat_map bnodes G))))) /\
  made P rc cc (Blk rc cc a (length R) (length C) (map Some G) (Some (S (length (flat_map bnodes G))))) /\ G <> [].
Proof.
  intros SR SC NT Hf HP G.
  assert (Hg : forall i j r c, nth_error R i = Some r -> nth_error C j = Some c -> made P r c (gof d f i j) /\ f i j = Ok (gof d f i j)).
  { intros i j r c Hi Hj. pose proof (Hf i j r c Hi Hj) as H. unfold gof. destruct (f i j); cbn in H; [auto|contradiction]. }
  assert (HG : forall s, In s G -> exists i j r c, nth_error R i = Some r /\ nth_error C j = Some c /\ s = gof d f i j).
  { intros s Hs. apply In_nth_error in Hs as [k Hk].
    assert (Lk : k < length R * length C) by (rewrite <- (gridl_length (length R) (length C) (gof d f)); apply nth_error_Some; unfold G in Hk; congruence).
    destruct (flat_index _ _ _ Lk) as (i & j & Hi & Hj & ->). unfold G in Hk. rewrite gridl_nth in Hk by assumption.
    injection Hk as <-. destruct (nth_error R i) as [r|] eqn:Ei; [|apply nth_error_None in Ei; lia].
    destruct (nth_error C j) as [c|] eqn:Ej; [|apply nth_error_None in Ej; lia].
    exists i, j, r, c. auto. }
  assert (NE : G <> []).
  { intros E. apply (f_equal (fun l : list (block K) => length l)) in E. unfold G in E. rewrite gridl_length in E. cbn in E.
    pose proof (splitting_ne _ _ SR). pose proof (splitting_ne _ _ SC). destruct R; [congruence|]. destruct C; [congruence|]. discriminate. }
  split; [|split; [|split; [|exact NE]]].
  - intros i j Hi Hj. destruct (nth_error R i) as [r|] eqn:Ei; [|apply nth_error_None in Ei; lia].
    destruct (nth_error C j) as [c|] eqn:Ej; [|apply nth_error_None in Ej; lia]. eapply Hg; eassumption.
  - apply update_grid; [apply gridl_length|]. intros s Hs. destruct (HG s Hs) as (i & j & r & c & Hi & Hj & ->).
    destruct (Hg _ _ _ _ Hi Hj) as [(_ & _ & T & _) _]. apply (T _ (bnodes_refl _)).
  - split; [reflexivity|]. split; [reflexivity|].
    assert (Hsub : forall x, In x (bnodes (Blk rc cc a (length R) (length C) (map Some G) (Some (S (length (flat_map bnodes G)))))) ->
      x = Blk rc cc a (length R) (length C) (map Some G) (Some (S (length (flat_map bnodes G)))) \/
      exists i j r c, nth_error R i = Some r /\ nth_error C j = Some c /\ In x (bnodes (gof d f i j))).
    { intros x Hx. apply in_bnodes in Hx as [->|(s & Hs & Hx)]; [left; reflexivity|right].
      cbn [b_son] in Hs. apply in_map_iff in Hs as (s' & E & Hs). injection E as ->.
      destruct (HG s Hs) as (i & j & r & c & Hi & Hj & ->). exists i, j, r, c. auto. }
    split.
    + intros x Hx. destruct (Hsub x Hx) as [->|(i & j & r & c & Hi & Hj & Hx')].
      * split; [cbn [b_desc]; rewrite bnodes_eq; cbn [b_son length]; rewrite flat_some; reflexivity|]. right.
        exists R, C, (map (fun j => map (fun i => gof d f i j) (seq 0 (length R))) (seq 0 (length C))).
        cbn [b_rc b_cc b_rsons b_csons b_son]. repeat (split; [solve [auto]|]).
        apply Forall2_seq. intros j c Hj. apply Forall2_seq. intros i r Hi. cbn [Nat.add].
        destruct (Hg _ _ _ _ Hi Hj) as [(E1 & E2 & _) _]. auto.
      * destruct (Hg _ _ _ _ Hi Hj) as [(_ & _ & T & _) _]. apply T. exact Hx'.
    + intros x Hx. destruct (Hsub x Hx) as [->|(i & j & r & c & Hi & Hj & Hx')].
      * apply HP; [destruct G; [congruence|discriminate]|]. intros i j s Hi Hs.
        assert (Hj : j < length C).
        { assert (L : i + j * length R < length (map Some G)) by (apply nth_error_Some; congruence). rewrite map_length in L. unfold G in L. rewrite gridl_length in L.
          apply Nat.nle_gt. intros Hj. pose proof (Nat.mul_le_mono_r _ _ (length R) Hj). lia. }
        rewrite nth_error_map in Hs. unfold G in Hs. rewrite gridl_nth in Hs by assumption. cbn in Hs. injection Hs as <-.
        destruct (nth_error R i) as [r|] eqn:Ei; [|apply nth_error_None in Ei; lia].
        destruct (nth_error C j) as [c|] eqn:Ej; [|apply nth_error_None in Ej; lia].
        destruct (Hg _ _ _ _ Ei Ej) as [(E1 & E2 & _) _]. subst r c. auto.
      * destruct (Hg _ _ _ _ Hi Hj) as [(_ & _ & _ & T) _]. apply T. exact Hx'.
Qed.

(** ** The full constructions *)
Variable admis : cluster K -> cluster K -> res bool.
Variable A : cluster K -> cluster K -> bool.

(** The condition can be evaluated for all clusters below [rc] and [cc]. *)
Definition adm_ok (rt ct : cluster K) : Prop :=
  forall r c : cluster K, In r (nodes rt) -> In c (nodes ct) -> admis r c = Ok (A r c).

Lemma adm_sub (rt ct rt' ct' : cluster K) : adm_ok rt ct -> In rt' (nodes rt) -> In ct' (nodes ct) -> adm_ok rt' ct'.
Proof.
  intros H Hr Hc r c Hr' Hc'. apply H.
  - clear -Hr Hr'. revert rt' Hr Hr'. induction rt as [size off sons dim b1 b2 ds typ IH] using cluster_rect'.
    intros rt' Hr Hr'. apply in_nodes in Hr as [->|(s & Hs & Hr)]; [exact Hr'|]. apply in_nodes. right. exists s.
    split; [exact Hs|]. rewrite Forall_forall in IH. eapply IH; eassumption.
  - clear -Hc Hc'. revert ct' Hc Hc'. induction ct as [size off sons dim b1 b2 ds typ IH] using cluster_rect'.
    intros rt' Hr Hr'. apply in_nodes in Hr as [->|(s & Hs & Hr)]; [exact Hr'|]. apply in_nodes. right. exists s.
    split; [exact Hs|]. rewrite Forall_forall in IH. eapply IH; eassumption.
Qed.

Lemma son_nodes t (s : cluster K) : In s (c_sons t) -> In s (nodes t).
Proof. intros H. apply in_nodes. right. exists s. split; [exact H|apply nodes_refl]. Qed.

(** Properties of every block of a full construction. *)
Definition full_node (strict : bool) x : Prop :=
  b_a x = A (cp_c (b_rc x)) (cp_c (b_cc x)) /\
  (b_a x = true -> b_son x = []) /\
  (b_a x = false -> b_son x = [] ->
     if strict then c_sons (cp_c (b_rc x)) = [] /\ c_sons (cp_c (b_cc x)) = []
     else c_sons (cp_c (b_rc x)) = [] \/ c_sons (cp_c (b_cc x)) = []) /\
  (b_son x <> [] -> b_rsons x = Nat.max 1 (cp_sons (b_rc x)) /\ b_csons x = Nat.max 1 (cp_sons (b_cc x))).

Lemma sons0 p : cp_sons p = 0 <-> c_sons (cp_c p) = [].
Proof. unfold cp_sons. destruct (c_sons _); cbn; split; congruence. Qed.

Definition refine p := if cp_sons p =? 0 then [p] else cp_split p.

Lemma refine_splitting p : splitting p (refine p).
Proof.
  unfold refine. destruct (Nat.eqb_spec (cp_sons p) 0) as [E|N]; [left; reflexivity|right]. split; [|reflexivity].
  intros E. apply N. apply sons0. exact E.
Qed.

Lemma split_ne p : cp_split p <> [p].
Proof.
  intros E. pose proof (cp_eqb_split p p 0) as H. rewrite E in H. cbn in H. rewrite cp_eqb_refl in H. discriminate (H eq_refl).
Qed.

Lemma refine_length p : length (refine p) = Nat.max 1 (cp_sons p).
Proof.
  unfold refine. destruct (Nat.eqb_spec (cp_sons p) 0) as [E|N]; [rewrite E; reflexivity|]. rewrite cp_split_length. lia.
Qed.

Lemma refine_fine p q : In q (refine p) -> (q = p /\ cp_sons p = 0) \/ (In q (cp_split p) /\ getdepth (cp_c q) < getdepth (cp_c p) /\ In (cp_c q) (nodes (cp_c p))).
Proof.
  unfold refine. destruct (Nat.eqb_spec (cp_sons p) 0) as [E|N].
  - intros [<-|[]]. auto.
  - intros H. right. pose proof (split_in _ _ H). split; [exact H|]. split; [apply depth_son; assumption|apply son_nodes; assumption].
Qed.

Lemma depth0 t : c_sons t = [] -> getdepth t = 0.
Proof. destruct t as [? ? sons ? ? ? ? ?]. cbn. intros ->. reflexivity. Qed.

Lemma refine_nodes p q : In q (refine p) -> In (cp_c q) (nodes (cp_c p)).
Proof. intros H. apply refine_fine in H as [[-> _]|(_ & _ & H)]; [apply nodes_refl|exact H]. Qed.

Lemma split_nth_fine p q i : nth_error (cp_split p) i = Some q -> getdepth (cp_c q) < getdepth (cp_c p) /\ In (cp_c q) (nodes (cp_c p)).
Proof. intros H. apply nth_error_In, split_in in H. split; [apply depth_son; exact H|apply son_nodes; exact H]. Qed.

Lemma son_split p i : cp_son p i = match nth_error (cp_split p) i with Some q => Ok q | None => Err EBounds end.
Proof. unfold cp_son. rewrite cp_split_nth. destruct (nth_error _ i); reflexivity. Qed.

Lemma mul0 (a b : nat) : a * b = 0 <-> a = 0 \/ b = 0.
Proof. destruct a, b; cbn; lia. Qed.

Lemma max1 n : n <> 0 -> Nat.max 1 n = n. Proof. lia. Qed.

Lemma rok_nonstrict fuel : forall rc cc, adm_ok (cp_c rc) (cp_c cc) -> getdepth (cp_c rc) + getdepth (cp_c cc) < fuel ->
  rok (build_nonstrict admis fuel rc cc) (made (full_node false) rc cc).
Proof.
  induction fuel as [|fuel IH]; intros rc cc HA HF; [lia|]. cbn [build_nonstrict].
  rewrite (HA _ _ (nodes_refl _) (nodes_refl _)). cbn [rbind].
  destruct (A (cp_c rc) (cp_c cc)) eqn:EA; cbn [negb].
  { apply (leaf_ok (full_node false)). split; [symmetry; exact EA|]. split; [reflexivity|]. split; [discriminate|]. intros N. destruct (N eq_refl). }
  destruct (Nat.eqb_spec (cp_sons rc * cp_sons cc) 0) as [E|N].
  { apply (leaf_ok (full_node false)). split; [symmetry; exact EA|]. split; [discriminate|]. split; [|intros X; destruct (X eq_refl)]. intros _ _. apply mul0 in E. rewrite !sons0 in E. exact E. }
  assert (Nr : cp_sons rc <> 0) by (intros E; apply N; rewrite E; reflexivity).
  assert (Nc : cp_sons cc <> 0) by (intros E; apply N; rewrite E; apply Nat.mul_0_r).
  pose (f := fun i j => let* r := cp_son rc i in let* c := cp_son cc j in build_nonstrict admis fuel r c).
  destruct (node_ok (full_node false) rc cc false (cp_split rc) (cp_split cc) (new_block rc cc false 0 0) f) as (F1 & F2 & F3 & _).
  - right. split; [intros E; apply Nr, sons0, E|reflexivity].
  - right. split; [intros E; apply Nc, sons0, E|reflexivity].
  - intros [E _]. apply (split_ne _ E).
  - intros i j r c Hi Hj. unfold f. rewrite !son_split, Hi, Hj. cbn [rbind].
    apply split_nth_fine in Hi as [D1 N1]. apply split_nth_fine in Hj as [D2 N2]. apply IH; [|lia].
    eapply adm_sub; eassumption.
  - intros son ds Hs _. split; [cbn; congruence|]. split; [discriminate|]. split; [contradiction|].
    intros _. cbn [b_rsons b_csons b_rc b_cc]. rewrite !cp_split_length, !max1 by assumption. auto.
  - rewrite !cp_split_length in *.
    rewrite (rfor_ext 0 (cp_sons rc) _ (fun i b => rfor 0 (cp_sons cc) (fun j b => let* s := f i j in set_son b (i + j * cp_sons rc) s) b)).
    + rewrite (fill_grid _ rc cc false _ _ f F1). cbn [rbind]. rewrite F2. exact F3.
    + intros i s Hi. apply rfor_ext. intros j s' Hj. unfold f. destruct (cp_son rc i); cbn [rbind]; [|reflexivity].
      destruct (cp_son cc j); reflexivity.
Qed.

(** The sons belong to the parts of the clusters. *)
Definition refined x : Prop := forall i j s, i < b_rsons x -> nth_error (b_son x) (i + j * b_rsons x) = Some (Some s) ->
  nth_error (refine (b_rc x)) i = Some (b_rc s) /\ nth_error (refine (b_cc x)) j = Some (b_cc s).
Definition strict_node x : Prop := full_node true x /\ refined x.
Lemma refined_leaf rc cc a ds : refined (Blk rc cc a 0 0 [] ds).
Proof. intros i j s Hi. cbn in Hi. lia. Qed.

Lemma rok_refined fuel : forall rc cc, adm_ok (cp_c rc) (cp_c cc) -> getdepth (cp_c rc) + getdepth (cp_c cc) < fuel ->
  rok (build_strict admis fuel rc cc) (made strict_node rc cc).
Proof.
  induction fuel as [|fuel IH]; intros rc cc HA HF; [lia|]. cbn [build_strict].
  rewrite (HA _ _ (nodes_refl _) (nodes_refl _)). cbn [rbind].
  destruct (A (cp_c rc) (cp_c cc)) eqn:EA; cbn [negb].
  { apply (leaf_ok strict_node). split; [|apply refined_leaf]. split; [symmetry; exact EA|]. split; [reflexivity|]. split; [discriminate|]. intros N. destruct (N eq_refl). }
  assert (Fin : ~ (cp_sons rc = 0 /\ cp_sons cc = 0) ->
    forall f, (forall i j r c, nth_error (refine rc) i = Some r -> nth_error (refine cc) j = Some c -> f i j = build_strict admis fuel r c) ->
    let G := gridl (Nat.max 1 (cp_sons rc)) (Nat.max 1 (cp_sons cc)) (gof (new_block rc cc false 0 0) f) in
    (forall i j, i < Nat.max 1 (cp_sons rc) -> j < Nat.max 1 (cp_sons cc) -> f i j = Ok (gof (new_block rc cc false 0 0) f i j)) /\
    rok (update_block (Blk rc cc false (Nat.max 1 (cp_sons rc)) (Nat.max 1 (cp_sons cc)) (map Some G) None)) (made strict_node rc cc)).
  { intros NT f Hf. rewrite <- !refine_length.
    destruct (node_ok strict_node rc cc false (refine rc) (refine cc) (new_block rc cc false 0 0) f) as (F1 & F2 & F3 & _).
    - apply refine_splitting.
    - apply refine_splitting.
    - intros [E1 E2]. apply NT. unfold refine in E1, E2. split.
      + destruct (Nat.eqb_spec (cp_sons rc) 0); [assumption|]. destruct (split_ne _ E1).
      + destruct (Nat.eqb_spec (cp_sons cc) 0); [assumption|]. destruct (split_ne _ E2).
    - intros i j r c Hi Hj. rewrite (Hf _ _ _ _ Hi Hj). apply nth_error_In in Hi, Hj.
      apply IH; [eapply adm_sub; [exact HA|apply refine_nodes; exact Hi|apply refine_nodes; exact Hj]|].
      apply refine_fine in Hi as [[-> Z1]|(_ & D1 & _)], Hj as [[-> Z2]|(_ & D2 & _)]; try lia. 
    - intros son ds Hs HR. split; [|intros i j s; apply HR]. split; [cbn; congruence|]. split; [discriminate|]. split; [contradiction|].
      intros _. cbn [b_rsons b_csons b_rc b_cc]. rewrite !refine_length. auto.
    - split; [exact F1|]. cbn zeta. rewrite F2. exact F3. }
  destruct (Nat.eqb_spec (cp_sons rc) 0) as [Er|Nr]; destruct (Nat.eqb_spec (cp_sons cc) 0) as [Ec|Nc].
  - cbn [rbind]. apply (leaf_ok strict_node). split; [|apply refined_leaf]. split; [symmetry; exact EA|]. split; [discriminate|]. split; [|intros X; destruct (X eq_refl)]. intros _ _. split; apply sons0; assumption.
  - destruct (Fin ltac:(tauto) (fun _ j => let* c := cp_son cc j in build_strict admis fuel rc c)) as [F1 F2].
    { intros i j r c Hi Hj. unfold refine in Hi, Hj. destruct (Nat.eqb_spec (cp_sons rc) 0); [|contradiction].
      destruct (Nat.eqb_spec (cp_sons cc) 0); [contradiction|]. rewrite son_split, Hj.
      destruct i as [|[|i]]; [injection Hi as <-; reflexivity|discriminate|discriminate]. }
    replace (Nat.max 1 (cp_sons rc)) with 1 in * by lia. replace (Nat.max 1 (cp_sons cc)) with (cp_sons cc) in * by lia.
    cbn zeta. rewrite (rfor_ext 0 (cp_sons cc) _ (fun j b => let* s := (let* c := cp_son cc j in build_strict admis fuel rc c) in set_son b j s)).
    + erewrite (fill_row _ rc cc false (cp_sons cc)); [cbn [rbind]; exact F2|]. intros j Hj. apply (F1 0 j); lia.
    + intros j s Hj. destruct (cp_son cc j); reflexivity.
  - destruct (Fin ltac:(tauto) (fun i _ => let* r := cp_son rc i in build_strict admis fuel r cc)) as [F1 F2].
    { intros i j r c Hi Hj. unfold refine in Hi, Hj. destruct (Nat.eqb_spec (cp_sons rc) 0); [contradiction|].
      destruct (Nat.eqb_spec (cp_sons cc) 0); [|contradiction]. rewrite son_split, Hi.
      destruct j as [|[|j]]; [injection Hj as <-; reflexivity|discriminate|discriminate]. }
    replace (Nat.max 1 (cp_sons cc)) with 1 in * by lia. replace (Nat.max 1 (cp_sons rc)) with (cp_sons rc) in * by lia.
    cbn zeta. rewrite (rfor_ext 0 (cp_sons rc) _ (fun i b => let* s := (let* r := cp_son rc i in build_strict admis fuel r cc) in set_son b i s)).
    + erewrite (fill_col _ rc cc false (cp_sons rc)); [cbn [rbind]; exact F2|]. intros i Hi. apply (F1 i 0); lia.
    + intros i s Hi. destruct (cp_son rc i); reflexivity.
  - destruct (Fin ltac:(tauto) (fun i j => let* r := cp_son rc i in let* c := cp_son cc j in build_strict admis fuel r c)) as [F1 F2].
    { intros i j r c Hi Hj. unfold refine in Hi, Hj. destruct (Nat.eqb_spec (cp_sons rc) 0); [contradiction|].
      destruct (Nat.eqb_spec (cp_sons cc) 0); [contradiction|]. rewrite !son_split, Hi, Hj. reflexivity. }
    replace (Nat.max 1 (cp_sons cc)) with (cp_sons cc) in * by lia. replace (Nat.max 1 (cp_sons rc)) with (cp_sons rc) in * by lia.
    cbn zeta. rewrite (rfor_ext 0 (cp_sons rc) _ (fun i b => rfor 0 (cp_sons cc) (fun j b =>
      let* s := (let* r := cp_son rc i in let* c := cp_son cc j in build_strict admis fuel r c) in set_son b (i + j * cp_sons rc) s) b)).
    + erewrite fill_grid; [cbn [rbind]; exact F2|exact F1].
    + intros i s Hi. apply rfor_ext. intros j s' Hj. destruct (cp_son rc i); cbn [rbind]; [|reflexivity].
      destruct (cp_son cc j); reflexivity.
Qed.

Lemma made_mono (P P' : block K -> Prop) rc cc b : made P rc cc b -> (forall x, P x -> P' x) -> made P' rc cc b.
Proof. intros (H1 & H2 & H3 & H4) H. repeat (split; [assumption|]). auto. Qed.
Lemma rok_strict fuel : forall rc cc, adm_ok (cp_c rc) (cp_c cc) -> getdepth (cp_c rc) + getdepth (cp_c cc) < fuel ->
  rok (build_strict admis fuel rc cc) (made (full_node true) rc cc).
Proof.
  intros rc cc H1 H2. eapply rok_conseq; [apply rok_refined; assumption|]. intros b H. eapply made_mono; [exact H|]. intros x [Hx _]. exact Hx.
Qed.
End Build.
