(** * Proofs about cluster numbers in block tree traversals *)
From Coq Require Import Arith Lia List Bool Permutation.
From Verif Require Import Fld Ord Prog Arr Loop Cluster ClusterSpec ClusterP ClusterP4 ClusterP5 Block BlockSpec BlockP BlockP2 BlockP3 BlockP4.
Import ListNotations.

Lemma rfor_list' {A S} (l : list A) n lo (body : nat -> S -> res S) (f : A -> S -> res S) s : n = length l ->
  (forall k x, nth_error l k = Some x -> forall s, body (lo + k) s = f x s) ->
  rfor lo n body s = rfold f l s.
Proof. intros ->. apply rfor_list. Qed.

Section Paths.
Context {K : ofops}.
Implicit Types (b x : block K) (t : cluster K) (p q rc cc r c : cptr K).

Lemma at_app l1 : forall t l2, at_path t (l1 ++ l2) = match at_path t l1 with Some u => at_path u l2 | None => None end.
Proof.
  induction l1 as [|i l1 IH]; intros t l2; cbn; [reflexivity|]. destruct (nth_error (c_sons t) i); [apply IH|reflexivity].
Qed.

Lemma cnum_app l1 : forall t l2 u, at_path t l1 = Some u -> cnum t (l1 ++ l2) = cnum t l1 + cnum u l2.
Proof.
  induction l1 as [|i l1 IH]; intros t l2 u H; cbn in *; [injection H as ->; reflexivity|].
  destruct (nth_error (c_sons t) i) as [v|]; [|discriminate]. rewrite (IH _ _ _ H). lia.
Qed.

Lemma at_nodes l : forall t u, at_path t l = Some u -> In u (nodes t).
Proof.
  induction l as [|i l IH]; intros t u H; cbn in H; [injection H as ->; apply nodes_refl|].
  destruct (nth_error (c_sons t) i) as [v|] eqn:E; [|discriminate]. apply in_nodes. right. exists v.
  split; [eapply nth_error_In; exact E|apply IH; exact H].
Qed.

Lemma cnum_lt l : forall t u, at_path t l = Some u -> cnum t l + length (nodes u) <= length (nodes t).
Proof.
  induction l as [|i l IH]; intros t u H; cbn [at_path cnum] in *; [injection H as ->; lia|].
  destruct (nth_error (c_sons t) i) as [v|] eqn:E; [|discriminate]. specialize (IH _ _ H).
  rewrite (nodes_eq t). cbn [length]. apply nth_error_split in E as (l1 & l2 & -> & <-). rewrite firstn_app, firstn_all, Nat.sub_diag, firstn_O, app_nil_r.
  rewrite flat_map_app. cbn [flat_map]. rewrite !app_length. lia.
Qed.

(** Different valid paths have different numbers. *)
Lemma firstn_mono (l : list (cluster K)) i j u : i < j -> nth_error l i = Some u ->
  length (flat_map nodes (firstn i l)) + length (nodes u) <= length (flat_map nodes (firstn j l)).
Proof.
  intros H E. apply nth_error_split in E as (l1 & l2 & -> & <-). rewrite (firstn_app (length l1)), firstn_all, Nat.sub_diag, firstn_O, app_nil_r.
  rewrite firstn_app, (firstn_all2 l1) by lia. rewrite flat_map_app, app_length. destruct (j - length l1) eqn:D; [lia|]. cbn. rewrite app_length. lia.
Qed.

Lemma cnum_inj l : forall t l' u u', at_path t l = Some u -> at_path t l' = Some u' -> cnum t l = cnum t l' -> l = l'.
Proof.
  induction l as [|i l IH]; intros t [|i' l'] u u' H H' E; cbn [at_path cnum] in *; [reflexivity|lia|lia|].
  destruct (nth_error (c_sons t) i) as [v|] eqn:N; [|discriminate]. destruct (nth_error (c_sons t) i') as [v'|] eqn:N'; [|discriminate].
  pose proof (cnum_lt _ _ _ H) as L. pose proof (cnum_lt _ _ _ H') as L'. pose proof (nodes_len_pos u). pose proof (nodes_len_pos u').
  destruct (Nat.lt_trichotomy i i') as [X|[X|X]].
  - pose proof (firstn_mono _ _ _ _ X N). lia.
  - subst i'. rewrite N in N'. injection N' as <-. f_equal. eapply IH; try eassumption. lia.
  - pose proof (firstn_mono _ _ _ _ X N'). lia.
Qed.

(** The number is the one of the depth-first walk. *)
Lemma cnum_nodes l : forall t u, at_path t l = Some u -> nth_error (nodes t) (cnum t l) = Some u.
Proof.
  induction l as [|i l IH]; intros t u H; cbn [at_path cnum] in *; [injection H as ->; rewrite nodes_eq; reflexivity|].
  destruct (nth_error (c_sons t) i) as [v|] eqn:E; [|discriminate]. rewrite nodes_eq. cbn [nth_error Nat.add].
  pose proof (cnum_lt _ _ _ H). pose proof (nodes_len_pos u). specialize (IH _ _ H).
  apply nth_error_split in E as (l1 & l2 & -> & <-). rewrite firstn_app, firstn_all, Nat.sub_diag, firstn_O, app_nil_r.
  rewrite flat_map_app. cbn [flat_map]. rewrite nth_error_app2 by lia. rewrite nth_error_app1 by lia.
  rewrite <- IH. f_equal. lia.
Qed.

Lemma nth_combine {A} (l : list A) n i (x : A) : nth_error l i = Some x -> In (n + i, x) (combine (seq n (length l)) l).
Proof.
  revert n i. induction l as [|y l IH]; intros n i H; [destruct i; discriminate|]. destruct i as [|i]; cbn in *.
  - left. f_equal; [lia|congruence].
  - right. replace (n + S i) with (S n + i) by lia. apply IH. exact H.
Qed.

Lemma cnum_walk l t u n : at_path t l = Some u -> In (Enter (n + cnum t l) u) (walk t n).
Proof.
  intros H. pose proof (nth_combine _ n _ _ (cnum_nodes _ _ _ H)) as I. rewrite <- entered_walk in I.
  unfold entered in I. apply in_flat_map in I as ([m v|m v] & Hv & I); cbn in I; [|destruct I].
  destruct I as [I|[]]. injection I as -> ->. exact Hv.
Qed.

(** ** References *)
Lemma points_nodes t p : points_into t p -> In (cp_c p) (nodes t).
Proof. apply at_nodes. Qed.

Lemma points_desc t p : desc_ok t -> points_into t p -> get_desc (cp_c p) = Ok (length (nodes (cp_c p))).
Proof. intros D P. unfold get_desc. rewrite (D _ (points_nodes _ _ P)). reflexivity. Qed.

(** A list of references whose clusters have consecutive numbers. *)
Fixpoint numl t (n : nat) (l : list (cptr K)) : Prop :=
  match l with
  | [] => True
  | q :: l' => points_into t q /\ cpnum t q = n /\ numl t (n + length (nodes (cp_c q))) l'
  end.
Definition lnodes (l : list (cptr K)) : nat := length (flat_map (fun q => nodes (cp_c q)) l).

Lemma numl_split t p : points_into t p -> numl t (cpnum t p + 1) (cp_split p).
Proof.
  intros P. assert (G : forall k l n, k + length l = cp_sons p -> (forall i, nth_error l i = nth_error (c_sons (cp_c p)) (k + i)) ->
     n = cpnum t p + 1 + length (flat_map nodes (firstn k (c_sons (cp_c p)))) ->
     numl t n (map (fun '(i, s) => CP (i :: cp_path p) s) (combine (seq k (length l)) l))).
  { intros k l. revert k. induction l as [|u l IH]; intros k n Hk Hl Hn; [exact I|]. cbn [length seq combine map numl].
    pose proof (Hl 0) as E. rewrite Nat.add_0_r in E. cbn in E. symmetry in E.
    assert (A : at_path t (rev (cp_path p) ++ [k]) = Some u).
    { rewrite at_app. unfold points_into in P. rewrite P. cbn. rewrite E. reflexivity. }
    split; [exact A|]. split.
    - unfold cpnum. cbn [cp_path rev]. rewrite (cnum_app _ _ _ _ P). cbn [cnum]. rewrite E. subst n. unfold cpnum. cbn [cnum]. lia.
    - cbn [cp_c]. apply IH; [cbn in Hk; lia| |].
      + intros i. pose proof (Hl (S i)) as E1. cbn in E1. rewrite E1. f_equal. lia.
      + subst n. rewrite <- Nat.add_assoc. f_equal. clear - E. apply nth_error_split in E as (l1 & l2 & -> & <-).
        rewrite firstn_app, firstn_all, Nat.sub_diag, firstn_O, app_nil_r.
        replace (S (length l1)) with (length (l1 ++ [u])) by (rewrite app_length; cbn; lia).
        replace (l1 ++ u :: l2) with ((l1 ++ [u]) ++ l2) by (rewrite <- app_assoc; reflexivity).
        rewrite firstn_app, firstn_all, Nat.sub_diag, firstn_O, app_nil_r, flat_map_app, app_length. cbn [flat_map]. rewrite app_nil_r. reflexivity. }
  unfold cp_split. apply (G 0); [reflexivity|intros i; reflexivity|cbn; lia].
Qed.

(** What a traversal needs to know about a splitting: whether it is proper is
    recognised from the first reference. *)
Lemma splitting_num t p l : splitting p l -> points_into t p -> exists d, d <= 1 /\
  (forall q n, nth_error l 0 = Some q -> (if cp_eqb q p then n else n + 1) = n + d) /\
  numl t (cpnum t p + d) l /\ d + lnodes l = length (nodes (cp_c p)) /\
  ((d = 0 /\ l = [p]) \/ (d = 1 /\ l = cp_split p /\ c_sons (cp_c p) <> [])).
Proof.
  intros [->|[N ->]] P.
  - exists 0. split; [lia|]. split; [|split; [|split]].
    + intros q n H. cbn in H. injection H as <-. rewrite cp_eqb_refl. lia.
    + cbn. rewrite Nat.add_0_r. auto.
    + unfold lnodes. cbn. rewrite app_nil_r. reflexivity.
    + left. auto.
  - exists 1. split; [lia|]. split; [|split; [|split]].
    + intros q n H. rewrite (cp_eqb_split _ _ _ H). reflexivity.
    + apply numl_split. exact P.
    + unfold lnodes. rewrite (nodes_eq (cp_c p)), <- (cp_split_map p). cbn [length]. rewrite !flat_map_concat_map, map_map. reflexivity.
    + right. auto.
Qed.

Lemma cpnum_inj t p q : points_into t p -> points_into t q -> (cpnum t p =? cpnum t q) = cp_eqb p q.
Proof.
  intros P Q. destruct (Nat.eqb_spec (cpnum t p) (cpnum t q)) as [E|N].
  - symmetry. apply cp_eqb_eq. pose proof (cnum_inj _ _ _ _ _ P Q E) as H. rewrite <- (rev_involutive (cp_path p)), H, rev_involutive. reflexivity.
  - destruct (cp_eqb p q) eqn:E; [|reflexivity]. destruct N. apply cp_eqb_eq in E. unfold cpnum. rewrite E. reflexivity.
Qed.

Lemma numl_points t l : forall n q, numl t n l -> In q l -> points_into t q.
Proof. induction l as [|q0 l IH]; intros n q N H; [destruct H|]. destruct N as (N1 & _ & N2), H as [<-|H]; [exact N1|eauto]. Qed.

Lemma splitting_points t p l q : points_into t p -> splitting p l -> In q l -> points_into t q.
Proof. intros P S Hq. destruct (splitting_num t p l S P) as (d & _ & _ & N & _). eapply numl_points; eassumption. Qed.

Lemma bnodes_points rt ct b : block_tree b -> points_into rt (b_rc b) -> points_into ct (b_cc b) ->
  forall x, In x (bnodes b) -> points_into rt (b_rc x) /\ points_into ct (b_cc x).
Proof.
  induction b as [rc cc a rs cs son ds IH] using block_rect'. set (b := Blk rc cc a rs cs son ds) in *.
  intros T P1 P2 x Hx. apply in_bnodes in Hx as [->|(s & Hs & Hx)]; [split; assumption|].
  destruct (block_cases b T) as [(E & _)|(R & C & cols & S1 & S2 & _ & _ & _ & E & F & Hc & NE)]; [rewrite E in Hs; destruct Hs|].
  assert (Hs' := Hs). rewrite E in Hs'. apply in_map_iff in Hs' as (s' & Es & Hs'). injection Es as ->.
  apply in_concat in Hs' as (col & Hcol & Hs'). destruct (Hc _ _ Hcol Hs') as (Ts & Hr & Hcc).
  apply (IH s Hs Ts); [| |exact Hx]; eapply splitting_points; eassumption.
Qed.

(** ** Walks *)
Fixpoint bwalks (l : list (block K)) (m : nat) : list (bvisit K) :=
  match l with [] => [] | s :: l' => bwalk s m ++ bwalks l' (m + length (bnodes s)) end.

Lemma bwalk_eq b l n : b_son b = map Some l -> bwalk b n = BEnter n b :: bwalks l (n + 1) ++ [BLeave n b].
Proof.
  destruct b as [rc cc a rs cs son ds]. cbn [b_son]. intros ->. cbn [bwalk]. do 2 f_equal.
  generalize (n + 1) as m. induction l as [|x l IH]; intros m; cbn; [reflexivity|]. f_equal. apply IH.
Qed.

Lemma bwalks_app l1 : forall l2 m, bwalks (l1 ++ l2) m = bwalks l1 m ++ bwalks l2 (m + length (flat_map bnodes l1)).
Proof.
  induction l1 as [|x l1 IH]; intros l2 m; cbn; [rewrite Nat.add_0_r; reflexivity|]. rewrite IH, <- app_assoc, app_length. do 3 f_equal. lia.
Qed.

Section Iterate.
Context {S : Type}.
Variables (rt ct : cluster K) (r0 c0 : nat).
Hypothesis (Dr : desc_ok rt) (Dc : desc_ok ct).
Variables pre post : option (bcb K S).

Definition on_bvisit (v : bvisit K) (s : S) : res S :=
  match v with
  | BEnter n x => bcall pre x n (r0 + cpnum rt (b_rc x)) (c0 + cpnum ct (b_cc x)) 0 s
  | BLeave n x => bcall post x n (r0 + cpnum rt (b_rc x)) (c0 + cpnum ct (b_cc x)) 0 s
  end.

Lemma iterate_bwalk b : block_tree b -> points_into rt (b_rc b) -> points_into ct (b_cc b) ->
  forall n (s : S), iterate_block pre post b n (r0 + cpnum rt (b_rc b)) (c0 + cpnum ct (b_cc b)) s = rfold on_bvisit (bwalk b n) s.
Proof.
  induction b as [rc cc a rs cs son ds IH] using block_rect'. set (b := Blk rc cc a rs cs son ds) in *.
  intros T P1 P2 n s. unfold b at 1. cbn [iterate_block]. fold b.
  destruct (block_cases b T) as [(E & E1 & E2)|(R & C & cols & S1 & S2 & _ & E1 & E2 & E & F & Hs & NE)].
  - rewrite (bwalk_eq b [] n E). cbn [app bwalks rfold on_bvisit]. change (b_rsons b) with rs in E1. rewrite E1. change (0 * cs =? 0) with true. cbn iota.
    destruct (bcall pre b n _ _ 0 s) as [s1|e]; cbn [rbind]; [|reflexivity]. destruct (bcall post b n _ _ 0 s1); reflexivity.
  - rewrite (bwalk_eq b (concat cols) n E). cbn [rfold on_bvisit]. change (b_rc b) with rc in *. change (b_cc b) with cc in *.
    destruct (bcall pre b n _ _ 0 s) as [s1|e]; cbn [rbind]; [|reflexivity]. rewrite rfold_app.
    change (b_rsons b) with rs in E1. change (b_csons b) with cs in E2. change (b_son b) with son in E.
    pose proof (splitting_ne _ _ S1) as NR. pose proof (splitting_ne _ _ S2) as NC.
    destruct (Nat.eqb_spec (rs * cs) 0) as [Z|_].
    { exfalso. apply mul0 in Z. destruct R; [congruence|]. destruct C; [congruence|]. cbn in E1, E2. lia. }
    assert (Fl : Forall (fun l => length l = rs) cols).
    { apply Forall_forall. intros col Hc. destruct (forall2_in _ _ _ _ F Hc) as (c & _ & F'). rewrite E1. symmetry. eapply Forall2_len, F'. }
    destruct (splitting_num rt rc R S1 P1) as (d1 & _ & Q1 & N1 & L1 & _).
    destruct (splitting_num ct cc C S2 P2) as (d2 & _ & Q2 & N2 & L2 & _).
    assert (exists b0, bget son 0 = Ok b0 /\ nth_error R 0 = Some (b_rc b0) /\ nth_error C 0 = Some (b_cc b0)) as (b0 & Eb0 & H1 & H2).
    { destruct R as [|r R]; [congruence|]. destruct C as [|c C]; [congruence|]. inversion F as [|? col ? cols' F0 F1]; subst cols.
      inversion F0 as [|? s0 ? col' [F2 F3] F4]; subst col. exists s0. rewrite E. split; [reflexivity|]. subst. auto. }
    rewrite Eb0. cbn [rbind]. rewrite (Q2 _ _ H2).
    (* one column *)
    assert (Col : forall c col R', Forall2 (fun r s => b_rc s = r /\ b_cc s = c) R' col -> points_into ct c ->
      (forall s, In s col -> In (Some s) son /\ block_tree s) ->
      forall rn m (s : S), numl rt rn R' ->
      rfold (fun x '(bname1, rname1, s) => let* s := iterate_block pre post x bname1 rname1 (c0 + cpnum ct c) s in
               let* d := bdesc x in let* rd := get_desc (cp_c (b_rc x)) in Ok (bname1 + d, rname1 + rd, s)) col (m, r0 + rn, s) =
      let* s := rfold on_bvisit (bwalks col m) s in Ok (m + length (flat_map bnodes col), r0 + rn + lnodes R', s)).
    { intros c col R' F0 Pc Hcol. induction F0 as [|r x R' col [X1 X2] F0 IHc]; intros rn m s2 NR'; cbn [rfold bwalks flat_map].
      - cbn. unfold lnodes. cbn. rewrite !Nat.add_0_r. reflexivity.
      - destruct NR' as (NR1 & NR2 & NR3). destruct (Hcol x (or_introl eq_refl)) as [Hx Tx].
        rewrite rfold_app. subst rn c. rewrite <- X1 in *. rewrite (IH x Hx Tx NR1 Pc).
        destruct (rfold on_bvisit (bwalk x m) s2) as [s3|e]; cbn [rbind]; [|reflexivity].
        rewrite (block_desc x Tx), (points_desc rt (b_rc x) Dr NR1). cbn [rbind]. rewrite <- Nat.add_assoc.
        rewrite IHc; [|intros; apply Hcol; right; assumption|exact NR3].
        destruct (rfold on_bvisit _ s3) as [s4|e]; cbn [rbind]; [|reflexivity].
        rewrite app_length. unfold lnodes. cbn [flat_map]. rewrite app_length. do 3 f_equal; lia. }
    (* all columns *)
    pose (step := fun (col : list (block K)) (st : nat * nat * S) => let '(bname1, cname1, s) := st in
         let* (bname1, rname1, s) := rfold (fun x '(bname1, rname1, s) => let* s := iterate_block pre post x bname1 rname1 cname1 s in
               let* d := bdesc x in let* rd := get_desc (cp_c (b_rc x)) in Ok (bname1 + d, rname1 + rd, s)) col (bname1, r0 + (cpnum rt rc + d1), s) in
         let* rd := get_desc (cp_c rc) in
         do* rassert (rname1 =? r0 + cpnum rt rc + rd) in
         let* bj := bget (map Some col) 0 in
         let* cd := get_desc (cp_c (b_cc bj)) in
         Ok (bname1, cname1 + cd, s)).
    assert (Step : forall c col, Forall2 (fun r s => b_rc s = r /\ b_cc s = c) R col -> points_into ct c ->
      (forall s, In s col -> In (Some s) son /\ block_tree s) -> forall m (s : S),
      step col (m, c0 + cpnum ct c, s) = let* s := rfold on_bvisit (bwalks col m) s in Ok (m + length (flat_map bnodes col), c0 + (cpnum ct c + length (nodes (cp_c c))), s)).
    { intros c col F1 NC1 Hcol m s2. unfold step. rewrite (Col c col R F1 NC1 Hcol _ m s2 N1).
      destruct (rfold on_bvisit (bwalks col m) s2) as [s3|e]; cbn [rbind]; [|reflexivity].
      rewrite (points_desc rt rc Dr P1). cbn [rbind].
      replace (r0 + (cpnum rt rc + d1) + lnodes R =? r0 + cpnum rt rc + length (nodes (cp_c rc))) with true by (symmetry; apply Nat.eqb_eq; lia).
      cbn [rassert rbind]. destruct F1 as [|r x R' col [X1 X2] F2]; [congruence|]. cbn [map]. unfold bget at 1. cbn [nth_error rbind].
      rewrite X2, (points_desc ct c Dc NC1). cbn [rbind]. do 3 f_equal. lia. }
    assert (Cols : forall C' cols', Forall2 (fun c col => Forall2 (fun r s => b_rc s = r /\ b_cc s = c) R col) C' cols' ->
      (forall col s, In col cols' -> In s col -> In (Some s) son /\ block_tree s) ->
      forall cn m (s : S), numl ct cn C' ->
      rfold step cols' (m, c0 + cn, s) =
      let* s := rfold on_bvisit (bwalks (concat cols') m) s in Ok (m + length (flat_map bnodes (concat cols')), c0 + cn + lnodes C', s)).
    { clearbody step. intros C' cols' F0 Hcols. induction F0 as [|c col C' cols' F1 F0 IHc]; intros cn m s2 NC'; cbn [rfold concat].
      - cbn. unfold lnodes. cbn. rewrite !Nat.add_0_r. reflexivity.
      - destruct NC' as (NC1 & NC2 & NC3). rewrite bwalks_app, rfold_app. subst cn.
        rewrite (Step c col F1 NC1) by (intros s3 Hs3; apply (Hcols col); [left; reflexivity|exact Hs3]).
        destruct (rfold on_bvisit (bwalks col m) s2) as [s3|e]; cbn [rbind]; [|reflexivity].
        rewrite IHc; [|intros col0 s4 Hc0; apply Hcols; right; exact Hc0|exact NC3].
        destruct (rfold on_bvisit _ s3) as [s4|e]; cbn [rbind]; [|reflexivity].
        rewrite flat_map_app, app_length. unfold lnodes. cbn [flat_map]. rewrite app_length. do 3 f_equal; lia. }
    assert (Lc : length cols = cs) by (rewrite E2; symmetry; eapply Forall2_len, F).
    match goal with |- (rbind (rbind ?A _) _) = _ => replace A with
      (let* s := rfold on_bvisit (bwalks (concat cols) (n + 1)) s1 in
       Ok (n + 1 + length (flat_map bnodes (concat cols)), c0 + (cpnum ct cc + d2) + lnodes C, s)) end.
    + destruct (rfold on_bvisit _ s1) as [s2|e]; cbn [rbind]; [|reflexivity].
      rewrite (points_desc ct cc Dc P2). cbn [rbind].
      replace (c0 + (cpnum ct cc + d2) + lnodes C =? c0 + cpnum ct cc + length (nodes (cp_c cc))) with true by (symmetry; apply Nat.eqb_eq; lia).
      cbn [rassert rbind]. rewrite (block_desc b T). cbn [rbind]. rewrite (bnodes_eq b). change (b_son b) with son. rewrite E, flat_some. cbn [length].
      replace (n + 1 + _ =? _) with true by (symmetry; apply Nat.eqb_eq; lia). cbn [rassert rbind rfold on_bvisit].
      change (b_rc b) with rc. change (b_cc b) with cc. destruct (bcall post b n _ _ 0 s2); reflexivity.
    + rewrite <- (Cols C cols F); [|intros col s2 Hc H; split; [rewrite E; apply in_map, in_concat; eauto|eapply Hs; eassumption]|exact N2].
      rewrite <- Lc, <- (Nat.add_assoc c0). symmetry. apply rfor_list. intros j col Hj [[m cn] s2]. cbn [Nat.add]. unfold step.
      assert (Lr : length col = rs) by (rewrite Forall_forall in Fl; apply Fl; eapply nth_error_In; exact Hj).
      rewrite (Q1 _ _ H1), <- (Nat.add_assoc r0).
      match goal with |- rbind ?A _ = rbind ?B _ => replace A with B end.
      * destruct (rfold _ col _) as [[[m' rn'] s3]|e]; cbn [rbind]; [|reflexivity].
        destruct (get_desc (cp_c rc)) as [rd|e]; cbn [rbind]; [|reflexivity]. destruct (rassert _); cbn [rbind]; [|reflexivity].
        destruct col as [|x col]; [cbn in Lr; destruct R; [congruence|cbn in E1; lia]|].
        rewrite E, (bget_some (concat cols) (j * rs) x).
        -- reflexivity.
        -- change (j * rs) with (0 + j * rs). rewrite (nth_concat cols rs j 0 (x :: col) Fl Hj); [reflexivity|cbn in Lr; lia].
      * symmetry. rewrite E. apply rfor_list'; [symmetry; exact Lr|]. intros i x Hi [[m' rn'] s3]. cbn [Nat.add].
        rewrite (bget_recs (iterate_block pre post) (concat cols) (i + j * rs) x); [reflexivity|].
        rewrite (nth_concat cols rs j i col Fl Hj); [exact Hi|]. rewrite <- Lr. apply nth_error_Some. congruence.
Qed.
End Iterate.
End Paths.
