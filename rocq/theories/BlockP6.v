(** * Proofs about block walks and the sparsity constant *)
From Coq Require Import Arith Lia List Bool Permutation.
From Verif Require Import Fld Ord Prog Arr Loop Cluster ClusterSpec ClusterP ClusterP4 ClusterP5 Block BlockSpec BlockP BlockP2 BlockP3 BlockP4 BlockP5.
Import ListNotations.

Section Csp.
Context {K : ofops}.
Implicit Types (b s x : block K) (t : cluster K) (p q rc cc r c : cptr K).

Lemma bentered_app (l1 l2 : list (bvisit K)) : bentered (l1 ++ l2) = bentered l1 ++ bentered l2.
Proof. apply flat_map_app. Qed.
Lemma bleft_app (l1 l2 : list (bvisit K)) : bleft_at (l1 ++ l2) = bleft_at l1 ++ bleft_at l2.
Proof. apply flat_map_app. Qed.

Lemma bentered_walk b : block_tree b -> forall n, bentered (bwalk b n) = combine (seq n (length (bnodes b))) (bnodes b).
Proof.
  induction b as [rc cc a rs cs son ds IH] using block_rect'. set (b := Blk rc cc a rs cs son ds) in *. intros T n.
  destruct (block_sons b T) as (l & El & _ & Tl & _). rewrite (bwalk_eq b l n El).
  change (bentered (BEnter n b :: ?l)) with ((n, b) :: bentered l). rewrite bentered_app.
  change (bentered [BLeave n b]) with (@nil (nat * block K)). rewrite app_nil_r, bnodes_eq, El, flat_some. cbn [length seq combine].
  f_equal. replace (S n) with (n + 1) by lia. generalize (n + 1) as m. assert (Hl : forall s, In s l -> In (Some s) son) by (intros s Hs; change son with (b_son b); rewrite El; apply in_map; exact Hs).
  clear El. induction l as [|s l IHl]; intros m; cbn [bwalks flat_map]; [reflexivity|].
  rewrite bentered_app, (IH s (Hl s (or_introl eq_refl)) (Tl s (or_introl eq_refl))), IHl, combine_seq_app; [reflexivity| |]; intros; [apply Tl|apply Hl]; right; assumption.
Qed.

Lemma bleft_walk b : block_tree b -> forall n, Permutation (bleft_at (bwalk b n)) (bentered (bwalk b n)).
Proof.
  induction b as [rc cc a rs cs son ds IH] using block_rect'. set (b := Blk rc cc a rs cs son ds) in *. intros T n.
  destruct (block_sons b T) as (l & El & _ & Tl & _). rewrite (bwalk_eq b l n El).
  change (bentered (BEnter n b :: ?l)) with ((n, b) :: bentered l). change (bleft_at (BEnter n b :: ?l)) with (bleft_at l).
  rewrite bentered_app, bleft_app. change (bentered [BLeave n b]) with (@nil (nat * block K)). change (bleft_at [BLeave n b]) with [(n, b)].
  rewrite app_nil_r. eapply Permutation_trans; [apply Permutation_app_comm|]. cbn [app]. apply perm_skip.
  generalize (n + 1) as m. assert (Hl : forall s, In s l -> In (Some s) son) by (intros s Hs; change son with (b_son b); rewrite El; apply in_map; exact Hs).
  clear El. induction l as [|s l IHl]; intros m; cbn [bwalks]; [constructor|].
  rewrite bentered_app, bleft_app. apply Permutation_app; [apply IH; [apply Hl; left; reflexivity|apply Tl; left; reflexivity]|].
  apply IHl; intros; [apply Tl|apply Hl]; right; assumption.
Qed.

(** The walk through a sub-block is a contiguous part of the whole walk. *)
Lemma bwalk_nested b : block_tree b -> forall n i s, nth_error (bnodes b) i = Some s ->
  exists l1 l2, bwalk b n = l1 ++ bwalk s (n + i) ++ l2.
Proof.
  induction b as [rc cc a rs cs son ds IH] using block_rect'. set (b := Blk rc cc a rs cs son ds) in *. intros T n i s H.
  destruct (block_sons b T) as (l & El & _ & Tl & _). rewrite bnodes_eq, El, flat_some in H. destruct i as [|i].
  - cbn in H. injection H as <-. exists [], []. cbn [app]. rewrite app_nil_r, Nat.add_0_r. reflexivity.
  - cbn [nth_error] in H. rewrite (bwalk_eq b l n El).
    assert (Hl : forall s, In s l -> In (Some s) son) by (intros s0 Hs; change son with (b_son b); rewrite El; apply in_map; exact Hs).
    assert (F : forall m j, nth_error (flat_map bnodes l) j = Some s -> exists l1 l2, bwalks l m = l1 ++ bwalk s (m + j) ++ l2).
    { clear El H. induction l as [|c l IHl]; intros m j H; [destruct j; discriminate H|]. cbn [flat_map bwalks] in *.
      destruct (Nat.ltb_spec j (length (bnodes c))) as [L|L].
      - rewrite nth_error_app1 in H by exact L. destruct (IH c (Hl c (or_introl eq_refl)) (Tl c (or_introl eq_refl)) m j s H) as (l1 & l2 & ->).
        exists l1, (l2 ++ bwalks l (m + length (bnodes c))). rewrite <- !app_assoc. reflexivity.
      - rewrite nth_error_app2 in H by exact L.
        destruct (IHl (fun x Hx => Tl x (or_intror Hx)) (fun x Hx => Hl x (or_intror Hx)) (m + length (bnodes c)) _ H) as (l1 & l2 & ->).
        exists (bwalk c m ++ l1), l2. rewrite <- !app_assoc.
        replace (m + length (bnodes c) + (j - length (bnodes c))) with (m + j) by lia. reflexivity. }
    destruct (F (n + 1) i H) as (l1 & l2 & ->).
    exists (BEnter n b :: l1), (l2 ++ [BLeave n b]). cbn [app]. f_equal. rewrite <- !app_assoc.
    replace (n + 1 + i) with (n + S i) by lia. reflexivity.
Qed.

Lemma map_snd_combine {A} (l : list A) n : map snd (combine (seq n (length l)) l) = l.
Proof. revert n. induction l as [|x l IH]; intros n; cbn; [reflexivity|]. f_equal. apply IH. Qed.

(** ** Sparsity constant *)
(** Counting with [pre_compute_csp]. *)
Lemma csp_fold (rt ct : cluster K) (l : list (bvisit K)) : forall row col (F G : nat -> nat) rd cd,
  (forall n x, In (n, x) (bentered l) -> cpnum rt (b_rc x) < rd /\ cpnum ct (b_cc x) < cd) ->
  aval row rd F -> aval col cd G ->
  rok (rfold (on_bvisit rt ct 0 0 (Some pre_compute_csp) None) l (row, col)) (fun '(row', col') =>
    aval row' rd (fun i => F i + length (filter (fun x => cpnum rt (b_rc x) =? i) (map snd (bentered l)))) /\
    aval col' cd (fun i => G i + length (filter (fun x => cpnum ct (b_cc x) =? i) (map snd (bentered l))))).
Proof.
  induction l as [|v l IH]; intros row col F G rd cd Hv HR HC; cbn [rfold].
  - cbn. split; eapply aval_ext; try eassumption; intros; cbn; lia.
  - apply rok_bind. destruct v as [n x|n x]; cbn [on_bvisit bcall].
    + destruct (Hv n x (or_introl eq_refl)) as [V1 V2]. cbn [Nat.add pre_compute_csp].
      apply rok_bind. eapply rok_aget; [exact HR|exact V1|]. apply rok_bind. eapply rok_aset; [exact HR|exact V1|]. intros row1 HR1.
      apply rok_bind. eapply rok_aget; [exact HC|exact V2|]. apply rok_bind. eapply rok_aset; [exact HC|exact V2|]. intros col1 HC1. cbn [rok].
      eapply rok_conseq; [eapply IH; [intros m y Hy; apply (Hv m y); right; exact Hy|exact HR1|exact HC1]|].
      intros [row2 col2] [A1 A2]. split; eapply aval_ext; try eassumption; intros i Hi; cbn beta.
      * change (map snd (bentered (BEnter n x :: l))) with (x :: map snd (bentered l)). cbn [filter]. unfold afupd.
        rewrite (Nat.eqb_sym (cpnum rt (b_rc x)) i). destruct (Nat.eqb_spec i (cpnum rt (b_rc x))); cbn [length]; [subst i|]; lia.
      * change (map snd (bentered (BEnter n x :: l))) with (x :: map snd (bentered l)). cbn [filter]. unfold afupd.
        rewrite (Nat.eqb_sym (cpnum ct (b_cc x)) i). destruct (Nat.eqb_spec i (cpnum ct (b_cc x))); cbn [length]; [subst i|]; lia.
    + cbn [rok]. eapply IH; [intros m y Hy; apply (Hv m y); exact Hy|exact HR|exact HC].
Qed.

Lemma rok_max (a : arr nat) n F m0 : aval a n F ->
  rok (rfor 0 n (fun i csp => let* y := aget a i in Ok (if csp <? y then y else csp)) m0)
    (fun m => m0 <= m /\ (forall i, i < n -> F i <= m) /\ (m = m0 \/ exists i, i < n /\ m = F i)).
Proof.
  intros HA. apply (rok_for (fun k m => m0 <= m /\ (forall i, i < k -> F i <= m) /\ (m = m0 \/ exists i, i < k /\ m = F i))).
  - repeat split; auto; intros; lia.
  - intros k m Hk (H1 & H2 & H3). apply rok_bind. eapply rok_aget; [exact HA|lia|]. cbn [rok].
    destruct (Nat.ltb_spec m (F k)).
    + split; [lia|]. split; [|right; exists k; split; [lia|reflexivity]]. intros i Hi. destruct (Nat.eq_dec i k); [subst; lia|]. specialize (H2 i ltac:(lia)). lia.
    + split; [lia|]. split.
      * intros i Hi. destruct (Nat.eq_dec i k); [subst; lia|]. apply H2. lia.
      * destruct H3 as [H3|(i & Hi & H3)]; [left; exact H3|right; exists i; split; [lia|exact H3]].
  - intros m H. exact H.
Qed.

Lemma rok_zero n : rok (rfor 0 n (fun i (row : arr nat) => aset row i 0) (anew n)) (fun row => aval row n (fun _ => 0)).
Proof.
  apply (rok_for (fun k row => aprt row n (fun i => i < k) (fun _ => 0))).
  - apply anew_prt. intros; lia.
  - intros k row Hk H. eapply rok_aset_prt; [exact H|lia|]. intros row' H'. eapply aprt_ext; [exact H'| |]; cbn; intros i Hi Hp; [lia|].
    unfold afupd. destruct (i =? k); reflexivity.
  - intros row H. eapply aprt_aval; [|exact H]. cbn. intros; lia.
Qed.

Lemma filter_ext_in' {A} (f g : A -> bool) l : (forall a, In a l -> f a = g a) -> filter f l = filter g l.
Proof.
  induction l as [|a l IH]; intros H; cbn; [reflexivity|]. rewrite (H a (or_introl eq_refl)), IH; [reflexivity|]. intros; apply H; right; assumption.
Qed.

Lemma cp_eqb_sym p q : cp_eqb p q = cp_eqb q p.
Proof. destruct (cp_eqb p q) eqn:E, (cp_eqb q p) eqn:F; try reflexivity; [apply cp_eqb_eq in E; symmetry in E; apply (proj2 (cp_eqb_eq _ _)) in E|apply cp_eqb_eq in F; symmetry in F; apply (proj2 (cp_eqb_eq _ _)) in F]; congruence. Qed.

Lemma compute_csp_ok (rt ct : cluster K) b : block_tree b -> b_rc b = CP [] rt -> b_cc b = CP [] ct -> desc_ok rt -> desc_ok ct ->
  exists m, compute_csp_block b = Ok m /\
    (forall s, In s (bnodes b) -> row_count b s <= m /\ col_count b s <= m) /\
    (exists s, In s (bnodes b) /\ (m = row_count b s \/ m = col_count b s)).
Proof.
  intros T Er Ec Dr Dc. assert (Pr : points_into rt (b_rc b)) by (rewrite Er; reflexivity). assert (Pc : points_into ct (b_cc b)) by (rewrite Ec; reflexivity).
  pose proof (bnodes_points rt ct b T Pr Pc) as Pts.
  assert (Rc : forall s, In s (bnodes b) -> row_count b s = length (filter (fun x => cpnum rt (b_rc x) =? cpnum rt (b_rc s)) (bnodes b))).
  { intros s Hs. unfold row_count. f_equal. apply filter_ext_in'. intros x Hx. rewrite (cpnum_inj rt); [reflexivity|apply Pts; exact Hx|apply Pts; exact Hs]. }
  assert (Cc : forall s, In s (bnodes b) -> col_count b s = length (filter (fun x => cpnum ct (b_cc x) =? cpnum ct (b_cc s)) (bnodes b))).
  { intros s Hs. unfold col_count. f_equal. apply filter_ext_in'. intros x Hx. rewrite (cpnum_inj ct); [reflexivity|apply Pts; exact Hx|apply Pts; exact Hs]. }
  assert (Lt : forall s, In s (bnodes b) -> cpnum rt (b_rc s) < length (nodes rt) /\ cpnum ct (b_cc s) < length (nodes ct)).
  { intros s Hs. destruct (Pts s Hs) as [A1 A2]. pose proof (cnum_lt _ _ _ A1). pose proof (cnum_lt _ _ _ A2).
    pose proof (nodes_len_pos (cp_c (b_rc s))). pose proof (nodes_len_pos (cp_c (b_cc s))). unfold cpnum. lia. }
  assert (G : rok (compute_csp_block b) (fun m => (forall s, In s (bnodes b) -> row_count b s <= m /\ col_count b s <= m) /\
    (exists s, In s (bnodes b) /\ (m = row_count b s \/ m = col_count b s)))); [|apply rok_inv in G as (m & E & G); exists m; auto].
  unfold compute_csp_block. rewrite (points_desc rt _ Dr Pr), (points_desc ct _ Dc Pc), Er, Ec. cbn [rbind cp_c].
  apply rok_bind. eapply rok_conseq; [apply rok_zero|]. intros row HR. apply rok_bind. eapply rok_conseq; [apply rok_zero|]. intros col HC.
  pose proof (iterate_bwalk (S:=arr nat * arr nat) rt ct 0 0 Dr Dc (Some pre_compute_csp) None b T Pr Pc 0 (row, col)) as W.
  rewrite Er, Ec in W. change (0 + cpnum rt (CP [] rt)) with 0 in W. change (0 + cpnum ct (CP [] ct)) with 0 in W.
  rewrite W. apply rok_bind. assert (En : map snd (bentered (bwalk b 0)) = bnodes b) by (rewrite bentered_walk by exact T; apply map_snd_combine).
  eapply rok_conseq; [eapply (csp_fold rt ct (bwalk b 0) row col (fun _ => 0) (fun _ => 0)); [|exact HR|exact HC]|].
  { intros n x Hx. apply Lt. rewrite <- En. apply in_map_iff. exists (n, x). auto. }
  intros [row' col'] [A1 A2]. rewrite En in A1, A2. apply rok_bind. eapply rok_conseq; [eapply rok_max; exact A1|].
  intros m1 (M1 & M2 & M3). eapply rok_conseq; [eapply rok_max; exact A2|]. intros m2 (M4 & M5 & M6). cbn beta in *. split.
  - intros s Hs. rewrite (Rc s Hs), (Cc s Hs). destruct (Lt s Hs) as [L1 L2]. specialize (M2 _ L1). specialize (M5 _ L2). cbn in M2, M5. lia.
  - assert (Wit : forall (f : block K -> nat) i, 0 < length (filter (fun x => f x =? i) (bnodes b)) -> exists s, In s (bnodes b) /\ f s = i).
    { intros f i H. destruct (filter (fun x => f x =? i) (bnodes b)) as [|s l] eqn:E; [cbn in H; lia|]. exists s.
      assert (I : In s (filter (fun x => f x =? i) (bnodes b))) by (rewrite E; left; reflexivity).
      apply filter_In in I as [I1 I2]. apply Nat.eqb_eq in I2. auto. }
    assert (Pos : 0 < m2).
    { destruct (Lt b (bnodes_refl b)) as [L1 _]. specialize (M2 _ L1). cbn in M2. rewrite <- (Rc b (bnodes_refl b)) in M2. unfold row_count in M2.
      rewrite bnodes_eq in M2. cbn [filter] in M2. rewrite cp_eqb_refl in M2. cbn in M2. lia. }
    destruct M6 as [->|(i & Hi & ->)].
    + destruct M3 as [->|(i & Hi & ->)]; [lia|]. cbn [Nat.add] in *. destruct (Wit (fun x => cpnum rt (b_rc x)) i Pos) as (s & Hs & E).
      exists s. split; [exact Hs|]. left. rewrite (Rc s Hs), E. reflexivity.
    + cbn [Nat.add] in *. destruct (Wit (fun x => cpnum ct (b_cc x)) i Pos) as (s & Hs & E).
      exists s. split; [exact Hs|]. right. rewrite (Cc s Hs), E. reflexivity.
Qed.
End Csp.
