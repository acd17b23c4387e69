(** * Proofs about the traversal by rows *)
From Coq Require Import Arith Lia List Bool Permutation.
From Verif Require Import Fld Ord Prog Arr Loop Cluster ClusterSpec ClusterP ClusterP4 ClusterP5 Block BlockSpec BlockP BlockP2 BlockP3 BlockP4 BlockP5.
Import ListNotations.

Lemma firstn_snoc {A} (l : list A) : forall k x, nth_error l k = Some x -> firstn (S k) l = firstn k l ++ [x].
Proof. induction l as [|y l IH]; intros [|k] x H; cbn in *; try discriminate; [congruence|]. f_equal. apply IH. exact H. Qed.

Lemma nth_lt {A} (l : list A) k : k < length l -> exists x, nth_error l k = Some x.
Proof. intros H. destruct (nth_error l k) eqn:E; [eauto|]. apply nth_error_None in E. lia. Qed.

Lemma concat_lupd {A} (l : list (list A)) : forall i x E, nth_error l i = Some x ->
  Permutation (concat (lupd l i (E ++ x))) (E ++ concat l).
Proof.
  induction l as [|y l IH]; intros [|i] x E H; cbn in *; try discriminate.
  - injection H as ->. rewrite app_assoc. reflexivity.
  - rewrite (IH i x E H). apply Permutation_app_swap_app.
Qed.

Lemma flat_map_Permutation {A B} (f : A -> list B) l l' : Permutation l l' -> Permutation (flat_map f l) (flat_map f l').
Proof.
  induction 1; cbn; [constructor|apply Permutation_app_head; assumption|apply Permutation_app_swap_app|etransitivity; eassumption].
Qed.

Lemma fop_map {A} (P Q : A -> A -> Prop) l : (forall x y, In x l -> In y l -> P x y -> Q x y) -> ForallOrdPairs P l -> ForallOrdPairs Q l.
Proof.
  induction l as [|x l IH]; intros H F; [constructor|]. inversion F as [|? ? F1 F2]; subst. constructor.
  - rewrite Forall_forall in *. intros y Hy. apply H; [left; reflexivity|right; exact Hy|apply F1; exact Hy].
  - apply IH; [|exact F2]. intros; apply H; try right; assumption.
Qed.

(** ** Traversals *)
Lemma pcalls_loop {A} par (l : list (ptree A)) : pcalls (ploop par l) = flat_map pcalls l.
Proof. destruct par; cbn; [reflexivity|]. induction l as [|t l IH]; cbn; [reflexivity|]. rewrite IH. reflexivity. Qed.

Lemma par_loop {A} (P : A -> A -> Prop) par (l : list (ptree A)) :
  (forall t, In t l -> par_calls P t) ->
  ForallOrdPairs (fun t1 t2 => forall x y, In x (pcalls t1) -> In y (pcalls t2) -> P x y) l -> par_calls P (ploop par l).
Proof.
  intros H F. destruct par; cbn.
  - split; [exact F|]. clear F. induction l as [|t l IH]; [exact I|]. split; [apply H; left; reflexivity|]. apply IH. intros; apply H; right; assumption.
  - clear F. induction l as [|t l IH]; cbn; [exact I|]. split; [apply H; left; reflexivity|]. apply IH. intros; apply H; right; assumption.
Qed.

Lemma ptree_rect' {A} (P : ptree A -> Prop) : (forall l, P (Pcalls l)) -> (forall t1 t2, P t1 -> P t2 -> P (Pseq t1 t2)) ->
  (forall l, Forall P l -> P (Ppar l)) -> forall t, P t.
Proof.
  intros H1 H2 H3. fix IH 1. intros [l|t1 t2|l]; [apply H1|apply H2; apply IH|apply H3].
  induction l as [|t l IHl]; constructor; [apply IH|exact IHl].
Qed.

Lemma pcalls_bind {A B} (f : A -> list B) t : pcalls (pbind f t) = flat_map f (pcalls t).
Proof.
  induction t as [l|t1 t2 H1 H2|l H] using ptree_rect'; cbn; [reflexivity|rewrite flat_map_app; congruence|].
  induction H as [|t l Ht Hl IH]; cbn; [reflexivity|]. rewrite flat_map_app, Ht, IH. reflexivity.
Qed.

Lemma par_bind {A B} (f : A -> list B) (P : A -> A -> Prop) (Q : B -> B -> Prop) t :
  (forall a a' x y, P a a' -> In x (f a) -> In y (f a') -> Q x y) -> par_calls P t -> par_calls Q (pbind f t).
Proof.
  intros H. induction t as [l|t1 t2 H1 H2|l HF] using ptree_rect'; cbn; [auto|intros [? ?]; auto|].
  intros [F G]. split.
  - clear HF G. induction l as [|t l IH]; cbn; [constructor|]. inversion F as [|? ? F1 F2]; subst. constructor; [|apply IH; exact F2].
    apply Forall_forall. intros t' Ht'. apply in_map_iff in Ht' as (t0 & <- & Ht'). rewrite Forall_forall in F1. specialize (F1 t0 Ht').
    intros x y Hx Hy. rewrite pcalls_bind in Hx, Hy. apply in_flat_map in Hx as (a & Ha & Hx). apply in_flat_map in Hy as (a' & Ha' & Hy).
    eapply H; [apply F1; eassumption|exact Hx|exact Hy].
  - clear F. induction HF as [|t l Ht Hl IH]; cbn in *; [exact I|]. destruct G as [G1 G2]. split; [apply Ht; exact G1|apply IH; exact G2].
Qed.

Section Rows.
Context {K : ofops}.
Implicit Types (b x : block K) (p q rc cc r c : cptr K) (e : bentry K).
Variables (rt ct : cluster K) (r0 c0 : nat).
Hypothesis (Dr : desc_ok rt) (Dc : desc_ok ct).

(** A block with its number and the numbers of its clusters. *)
Definition full (n : nat) x : block K * nat * nat * nat := (x, n, r0 + cpnum rt (b_rc x), c0 + cpnum ct (b_cc x)).
Definition bnum x (n : nat) := map (fun '(k, y) => full k y) (combine (seq n (length (bnodes x))) (bnodes x)).
Fixpoint bnums (l : list (block K)) (n : nat) :=
  match l with [] => [] | x :: l' => bnum x n ++ bnums l' (n + length (bnodes x)) end.
Definition ek e : block K * nat * nat * nat := (e_b e, e_bname e, e_rname e, e_cname e).

Lemma bnums_flat l : forall n, bnums l n = map (fun '(k, y) => full k y) (combine (seq n (length (flat_map bnodes l))) (flat_map bnodes l)).
Proof.
  induction l as [|x l IH]; intros n; cbn [bnums flat_map]; [reflexivity|]. rewrite IH. unfold bnum. rewrite combine_seq_app, map_app. reflexivity.
Qed.
Lemma bnum_eq b l n : b_son b = map Some l -> bnum b n = full n b :: bnums l (n + 1).
Proof.
  intros E. unfold bnum. rewrite bnodes_eq, E, flat_some. cbn [length seq combine map]. f_equal. rewrite bnums_flat. replace (S n) with (n + 1) by lia. reflexivity.
Qed.
Lemma bnums_app l1 : forall l2 n, bnums (l1 ++ l2) n = bnums l1 n ++ bnums l2 (n + length (flat_map bnodes l1)).
Proof.
  induction l1 as [|x l1 IH]; intros l2 n; cbn; [rewrite Nat.add_0_r; reflexivity|]. rewrite IH, <- app_assoc, app_length. do 3 f_equal. lia.
Qed.
Lemma bnum_in x n z : In z (bnum x n) -> In (fst (fst (fst z))) (bnodes x).
Proof.
  unfold bnum. intros H. apply in_map_iff in H as ([k y] & <- & H). cbn. apply in_combine_r in H. exact H.
Qed.
Lemma bnums_in l : forall n z, In z (bnums l n) -> exists x, In x l /\ In (fst (fst (fst z))) (bnodes x).
Proof.
  induction l as [|x l IH]; intros n z H; [destruct H|]. cbn in H. apply in_app_or in H as [H|H].
  - exists x. split; [left; reflexivity|eapply bnum_in; exact H].
  - destruct (IH _ _ H) as (y & Hy & H'). exists y. split; [right; exact Hy|exact H'].
Qed.

Lemma numl_nth t l : forall n k q, numl t n l -> nth_error l k = Some q -> points_into t q /\ cpnum t q = n + lnodes (firstn k l).
Proof.
  induction l as [|q0 l IH]; intros n k q H E; [destruct k; discriminate|]. destruct H as (H1 & H2 & H3). destruct k as [|k]; cbn in E.
  - injection E as <-. split; [exact H1|]. unfold lnodes. cbn. lia.
  - destruct (IH _ _ _ H3 E) as [A B]. split; [exact A|]. rewrite B. unfold lnodes. cbn [firstn flat_map]. rewrite app_length. lia.
Qed.
Lemma lnodes_snoc l q : lnodes (l ++ [q]) = lnodes l + length (nodes (cp_c q)).
Proof. unfold lnodes. rewrite flat_map_app, app_length. cbn. rewrite app_nil_r. reflexivity. Qed.

Lemma fop_nth {A} (P : A -> A -> Prop) (l : list A) : (forall i j (x y : A), i < j -> nth_error l i = Some x -> nth_error l j = Some y -> P x y) -> ForallOrdPairs P l.
Proof.
  induction l as [|x l IH]; intros H; constructor.
  - apply Forall_forall. intros y Hy. apply In_nth_error in Hy as [j Hj]. apply (H 0 (S j)); [lia|reflexivity|exact Hj].
  - apply IH. intros i j u v Hij Hu Hv. apply (H (S i) (S j)); [lia|exact Hu|exact Hv].
Qed.
Lemma split_apart p i j r c : partition_tree (cp_c p) -> nth_error (cp_split p) i = Some r -> nth_error (cp_split p) j = Some c ->
  i < j -> forall u v : cluster K, In u (nodes (cp_c r)) -> In v (nodes (cp_c c)) -> c_off u + c_size u <= c_off v.
Proof.
  intros PT Hi Hj H x y Hx Hy. rewrite cp_split_nth in Hi, Hj.
  destruct (nth_error (c_sons (cp_c p)) i) as [s|] eqn:Ei; [|discriminate]. injection Hi as <-.
  destruct (nth_error (c_sons (cp_c p)) j) as [u|] eqn:Ej; [|discriminate]. injection Hj as <-. cbn [cp_c] in *.
  assert (N : c_sons (cp_c p) <> []) by (intros N; rewrite N in Ei; destruct i; discriminate).
  pose proof (tiles_order _ _ _ _ _ _ _ (proj2 (PT _ (nodes_refl _)) N) H Ei Ej) as O.
  assert (W : forall s, In s (c_sons (cp_c p)) -> forall z, In z (nodes s) -> c_off s <= c_off z /\ c_off z + c_size z <= c_off s + c_size s).
  { intros s' Hs'. apply nodes_within. intros z Hz. apply PT. apply in_nodes. right. exists s'. split; assumption. }
  pose proof (W s (nth_error_In _ _ Ei) x Hx). pose proof (W u (nth_error_In _ _ Ej) y Hy). lia.
Qed.

(** ** Splitting a block by rows *)
Definition same_row b : bool := match b_son b with Some s :: _ => cp_eqb (b_rc s) (b_rc b) | _ => false end.

Lemma row_cases b : block_tree b ->
  (b_son b = [] /\ b_rsons b = 0 /\ b_csons b = 0) \/
  (same_row b = true /\ b_rsons b = 1 /\ b_csons b = cp_sons (b_cc b) /\ exists l, l <> [] /\ b_son b = map Some l /\
     Forall2 (fun c x => b_rc x = b_rc b /\ b_cc x = c /\ block_tree x) (cp_split (b_cc b)) l) \/
  (same_row b = false /\ c_sons (cp_c (b_rc b)) <> [] /\ b_rsons b = cp_sons (b_rc b) /\ exists C cols, splitting (b_cc b) C /\ b_csons b = length C /\
     b_son b = map Some (concat cols) /\ concat cols <> [] /\
     Forall2 (fun c col => Forall2 (fun r x => b_rc x = r /\ b_cc x = c /\ block_tree x) (cp_split (b_rc b)) col) C cols).
Proof.
  intros T. destruct (block_cases b T) as [(E & E1 & E2)|(R & C & cols & S1 & S2 & NT & E1 & E2 & E & F & Hs & NE)]; [left; auto|right].
  assert (F' : Forall2 (fun c col => Forall2 (fun r x => b_rc x = r /\ b_cc x = c /\ block_tree x) R col) C cols).
  { assert (Ht : forall col x, In col cols -> In x col -> block_tree x) by (intros col x H1 H2; apply (Hs col x H1 H2)). clear - F Ht.
    induction F as [|c col C cols F0 F IH]; constructor.
    - assert (Hx : forall x, In x col -> block_tree x) by (intros x Hx; apply (Ht col x); [left; reflexivity|exact Hx]). clear - F0 Hx.
      induction F0 as [|r x R col [A B] F0 IH]; constructor; [split; [exact A|split; [exact B|apply Hx; left; reflexivity]]|].
      apply IH. intros; apply Hx; right; assumption.
    - apply IH. intros col0 x H1 H2. apply (Ht col0 x); [right; exact H1|exact H2]. }
  clear F. assert (SR : same_row b = true -> R = [b_rc b]).
  { unfold same_row. rewrite E. destruct C as [|c C]; [destruct (splitting_ne _ _ S2); reflexivity|]. inversion F' as [|? col ? cols' F0 F1]; subst.
    destruct S1 as [->|[N ->]]; [auto|]. destruct (cp_split (b_rc b)) as [|r R] eqn:ES; [exfalso; apply N; rewrite <- (cp_split_map (b_rc b)), ES; reflexivity|].
    inversion F0 as [|? x ? col' (A & _) F2]; subst. cbn. rewrite (cp_eqb_split (b_rc b) (b_rc x) 0) by (rewrite ES; reflexivity). discriminate. }
  assert (RS : R = [b_rc b] -> same_row b = true).
  { intros ->. unfold same_row. rewrite E. destruct C as [|c C]; [destruct (splitting_ne _ _ S2); reflexivity|]. inversion F' as [|? col ? cols' F0 F1]; subst.
    inversion F0 as [|? x ? col' (A & _) F2]; subst. cbn. rewrite A. apply cp_eqb_refl. }
  destruct (same_row b) eqn:EB.
  - left. specialize (SR eq_refl). subst R. destruct S2 as [->|[N ->]]; [destruct NT; auto|].
    split; [reflexivity|]. split; [exact E1|]. split; [rewrite E2; apply cp_split_length|]. exists (concat cols). split; [exact NE|]. split; [exact E|].
    clear - F'. induction F' as [|c col C cols F0 F IH]; cbn; [constructor|]. inversion F0 as [|? x ? col' A F1]; subst. inversion F1; subst. cbn. constructor; assumption.
  - right. assert (NR : R <> [b_rc b]) by (intros X; specialize (RS X); discriminate). destruct S1 as [->|[N ->]]; [congruence|].
    split; [reflexivity|]. split; [exact N|]. split; [rewrite E1; apply cp_split_length|]. exists C, cols. auto.
Qed.

(** Entries of the list for the row cluster [p]. *)
Definition eok p e : Prop := block_tree (e_b e) /\ b_rc (e_b e) = p /\ points_into ct (b_cc (e_b e)) /\ ek e = full (e_bname e) (e_b e).
Definition subs b (n : nat) : list (block K * nat * nat * nat) :=
  if same_row b then [] else bnums (flat_map (ol (fun x => [x])) (b_son b)) (n + 1).
Definition own e := ek e :: subs (e_b e) (e_bname e).

Lemma flat_self (l : list (block K)) : flat_map (ol (fun x => [x])) (map Some l) = l.
Proof. rewrite flat_some. induction l as [|x l IH]; cbn; [reflexivity|]. rewrite IH. reflexivity. Qed.

Lemma addrow_ok b : block_tree b -> points_into rt (b_rc b) -> points_into ct (b_cc b) -> forall n f next,
  exists E, addrow b n (r0 + cpnum rt (b_rc b)) (c0 + cpnum ct (b_cc b)) f next = Ok (E ++ next) /\
    Forall (eok (b_rc b)) E /\ Permutation (flat_map own E) (bnum b n).
Proof.
  induction b as [rc cc a rs cs son ds IH] using block_rect'. set (b := Blk rc cc a rs cs son ds) in *.
  intros T P1 P2 n f next. unfold b at 1. cbn [addrow]. fold b.
  set (e0 := BE b n (r0 + cpnum rt (b_rc b)) (c0 + cpnum ct (b_cc b)) f).
  assert (Ok0 : eok (b_rc b) e0) by (split; [exact T|split; [reflexivity|split; [exact P2|reflexivity]]]).
  destruct (row_cases b T) as [(E & E1 & E2)|[(SR & E1 & E2 & l & NE & E & F)|(SR & N & E1 & C & cols & S2 & E2 & E & NE & F)]].
  - change (b_rsons b) with rs in E1. rewrite E1. change (0 * cs =? 0) with true. cbn iota. exists [e0]. split; [reflexivity|]. split; [auto|].
    cbn [flat_map]. rewrite app_nil_r. unfold own, subs. cbn [e_b e_bname e0]. unfold same_row. rewrite E. cbn [flat_map bnums].
    rewrite (bnum_eq b [] n E). reflexivity.
  - change (b_rsons b) with rs in E1. change (b_csons b) with cs in E2. change (b_son b) with son in E. change (b_rc b) with rc in *. change (b_cc b) with cc in *.
    assert (Ll : length l = cs) by (rewrite E2, <- (cp_split_length cc); symmetry; eapply Forall2_len, F).
    destruct (Nat.eqb_spec (rs * cs) 0) as [Z|_]; [exfalso; subst rs; destruct l; [congruence|cbn in Ll; lia]|].
    unfold same_row in SR. change (b_son b) with son in SR. change (b_rc b) with rc in SR.
    assert (exists b0, bget son 0 = Ok b0 /\ cp_eqb (b_rc b0) rc = true) as (b0 & Eb0 & Eq0).
    { rewrite E in SR |- *. destruct l as [|x l]; [congruence|]. exists x. split; [reflexivity|exact SR]. }
    rewrite Eb0. cbn [rbind]. rewrite Eq0, E2, Nat.eqb_refl. cbn [rassert rbind].
    assert (NumC := numl_split ct cc P2).
    assert (G : forall C' l', Forall2 (fun c x => b_rc x = rc /\ b_cc x = c /\ block_tree x) C' l' -> (forall x, In x l' -> In (Some x) son) ->
      forall m cn pb, numl ct cn C' -> exists E',
      rfold (fun x '(bname1, cname1, pb) =>
         let* pb := addrow x bname1 (r0 + cpnum rt rc) cname1 (Some e0) pb in
         let* d := bdesc x in let* cd := get_desc (cp_c (b_cc x)) in Ok (bname1 + d, cname1 + cd, pb)) l' (m, c0 + cn, pb) =
      Ok (m + length (flat_map bnodes l'), c0 + cn + lnodes C', E' ++ pb) /\ Forall (eok rc) E' /\ Permutation (flat_map own E') (bnums l' m)).
    { intros C' l' F0 Hl. induction F0 as [|c x C' l' (X1 & X2 & X3) F0 IHl]; intros m cn pb NC; cbn [rfold flat_map bnums].
      - exists []. cbn. rewrite !Nat.add_0_r. auto.
      - destruct NC as (NC1 & NC2 & NC3). rewrite <- X1 in P1. rewrite <- X2 in NC1, NC2.
        destruct (IH x (Hl x (or_introl eq_refl)) X3 P1 NC1 m (Some e0) pb) as (E1' & A1 & A2 & A3). rewrite X1 in A1, A2, P1. rewrite NC2 in A1. rewrite A1. cbn [rbind].
        rewrite (block_desc x X3), (points_desc ct (b_cc x) Dc NC1). cbn [rbind]. rewrite <- Nat.add_assoc, X2.
        destruct (IHl (fun y Hy => Hl y (or_intror Hy)) (m + length (bnodes x)) (cn + length (nodes (cp_c c))) (E1' ++ pb) NC3) as (E2' & B1 & B2 & B3).
        exists (E2' ++ E1'). rewrite B1, app_assoc. split; [do 3 f_equal; [|unfold lnodes; cbn [flat_map]]; rewrite app_length; lia|].
        split; [apply Forall_app; auto|]. rewrite flat_map_app, B3, A3. apply Permutation_app_comm. }
    destruct (G _ l F) with (m := n + 1) (cn := cpnum ct cc + 1) (pb := e0 :: next) as (E' & A1 & A2 & A3); [rewrite E; intros; apply in_map; assumption|exact NumC|].
    exists (E' ++ [e0]). rewrite <- app_assoc. cbn [app].
    match goal with |- rbind ?X _ = _ /\ _ => replace X with (Ok (n + 1 + length (flat_map bnodes l), c0 + (cpnum ct cc + 1) + lnodes (cp_split cc), E' ++ e0 :: next)) end.
    + cbn [rbind]. rewrite (block_desc b T). cbn [rbind]. rewrite (bnodes_eq b). change (b_son b) with son. rewrite E, flat_some. cbn [length].
      replace (n + 1 + length (flat_map bnodes l) =? n + S (length (flat_map bnodes l))) with true by (symmetry; apply Nat.eqb_eq; lia). cbn [rassert rbind].
      rewrite (points_desc ct cc Dc P2). cbn [rbind].
      assert (L2 : lnodes (cp_split cc) + 1 = length (nodes (cp_c cc))).
      { unfold lnodes. rewrite (nodes_eq (cp_c cc)), <- (cp_split_map cc). cbn [length]. rewrite !flat_map_concat_map, map_map. lia. }
      replace (_ =? _) with true by (symmetry; apply Nat.eqb_eq; lia). cbn [rassert rbind]. split; [reflexivity|].
      split; [apply Forall_app; auto|]. rewrite flat_map_app, A3. cbn [flat_map]. rewrite app_nil_r. unfold own at 1, subs. cbn [e_b e_bname e0].
      replace (same_row b) with true by (symmetry; exact SR). rewrite (bnum_eq b l n E). change (ek e0) with (full n b). symmetry. apply Permutation_cons_append.
    + rewrite <- A1. rewrite <- Nat.add_assoc. symmetry. apply rfor_list'; [rewrite Ll; symmetry; exact E2|]. intros j x Hj [[m cn] pb]. cbn [Nat.add]. rewrite E.
      rewrite (bget_recs addrow l (j * rs) x) by (rewrite E1, Nat.mul_1_r; exact Hj). cbn [rbind]. rewrite (bget_some l j x Hj).
      assert (exists c, nth_error (cp_split cc) j = Some c) as [c Hc].
      { apply nth_lt. rewrite (Forall2_len _ _ _ F). apply nth_error_Some. congruence. }
      destruct (Forall2_nth _ _ _ F j c x Hc Hj) as (X1 & X2 & X3). change (b_rc b) with rc.
      destruct (addrow x m (r0 + cpnum rt rc) cn (Some e0) pb) as [pb'|er]; cbn [rbind]; [|reflexivity].
      destruct (bdesc x); cbn [rbind]; [|reflexivity]. rewrite son_split, Hc. cbn [rbind]. rewrite X2. reflexivity.
  - change (b_rsons b) with rs in E1. change (b_csons b) with cs in E2. change (b_son b) with son in E. change (b_rc b) with rc in *. change (b_cc b) with cc in *.
    exists [e0]. assert (NR : rs <> 0) by (rewrite E1; intros Z; apply N, sons0, Z).
    assert (NC : cs <> 0) by (rewrite E2; pose proof (splitting_ne _ _ S2); destruct C; [congruence|discriminate]).
    destruct (Nat.eqb_spec (rs * cs) 0) as [Z|_]; [apply mul0 in Z; tauto|].
    assert (SR' := SR). unfold same_row in SR'. change (b_son b) with son in SR'. change (b_rc b) with rc in SR'.
    assert (exists b0, bget son 0 = Ok b0 /\ cp_eqb (b_rc b0) rc = false) as (b0 & Eb0 & Eq0).
    { rewrite E in SR' |- *. destruct (concat cols) as [|x l]; [congruence|]. exists x. split; [reflexivity|exact SR']. }
    rewrite Eb0. cbn [rbind]. rewrite Eq0. split; [reflexivity|]. split; [auto|]. cbn [flat_map]. rewrite app_nil_r. unfold own, subs. cbn [e_b e_bname e0].
    rewrite SR. change (b_son b) with son. rewrite E, flat_self, (bnum_eq b (concat cols) n E). reflexivity.
Qed.

(** ** The lists for the sons of a row cluster *)
Definition lists_ok rc (pb1 : list (list (bentry K))) : Prop :=
  Forall2 (fun r l => Forall (eok r) l) (cp_split rc) pb1.

Lemma lists_set rc pb1 i r l : lists_ok rc pb1 -> nth_error (cp_split rc) i = Some r -> Forall (eok r) l -> lists_ok rc (lupd pb1 i l).
Proof.
  unfold lists_ok. generalize (cp_split rc) as R. intros R H. revert i. induction H as [|r0' l0 R pb H0 H IH]; intros [|i] Hi Hl; cbn in *; try discriminate.
  - injection Hi as ->. constructor; assumption.
  - constructor; [assumption|]. apply IH; assumption.
Qed.

Lemma row_names p (rname : nat) : points_into rt p -> exists rnames,
  rfor 0 (cp_sons p) (fun i '(rnames, rname1) =>
    let* r := cp_son p i in let* d := get_desc (cp_c r) in Ok (rnames ++ [rname1], rname1 + d)) ([], rname + 1) =
  Ok (rnames, rname + 1 + lnodes (cp_split p)) /\
  (forall i, i < cp_sons p -> nth_error rnames i = Some (rname + 1 + lnodes (firstn i (cp_split p)))).
Proof.
  intros P. pose proof (numl_split rt p P) as NL.
  assert (G : rok (rfor 0 (cp_sons p) (fun i '(rnames, rname1) =>
    let* r := cp_son p i in let* d := get_desc (cp_c r) in Ok (rnames ++ [rname1], rname1 + d)) ([], rname + 1))
    (fun '(rnames, rname1) => rname1 = rname + 1 + lnodes (cp_split p) /\ length rnames = cp_sons p /\
       forall i, i < cp_sons p -> nth_error rnames i = Some (rname + 1 + lnodes (firstn i (cp_split p))))).
  { apply (rok_for (fun k '(rnames, rname1) => rname1 = rname + 1 + lnodes (firstn k (cp_split p)) /\ length rnames = k /\
       forall i, i < k -> nth_error rnames i = Some (rname + 1 + lnodes (firstn i (cp_split p))))).
    - unfold lnodes. cbn. split; [lia|]. split; [reflexivity|intros; lia].
    - intros k [rnames rname1] Hk (H1 & H2 & H3). destruct (nth_lt (cp_split p) k) as [r Hr]; [rewrite cp_split_length; lia|].
      rewrite son_split, Hr. cbn [rbind]. destruct (numl_nth _ _ _ _ _ NL Hr) as [Pr _]. rewrite (points_desc rt r Dr Pr). cbn [rbind rok].
      rewrite (firstn_snoc _ _ _ Hr), lnodes_snoc. split; [lia|]. split; [rewrite app_length; cbn; lia|]. intros i Hi.
      destruct (Nat.eq_dec i k) as [->|Ni].
      + rewrite nth_error_app2 by lia. rewrite H2, Nat.sub_diag. cbn. congruence.
      + rewrite nth_error_app1 by lia. apply H3. lia.
    - intros [rnames rname1] (H1 & H2 & H3). rewrite firstn_all2 in H1 by (rewrite cp_split_length; lia). auto. }
  apply rok_inv in G as ([rnames rname1] & E & -> & _ & H). exists rnames. auto.
Qed.

Lemma cp_eta p : CP (cp_path p) (cp_c p) = p.
Proof. destruct p. reflexivity. Qed.

Lemma row_sons_ok p pb : points_into rt p -> Forall (eok p) pb -> c_sons (cp_c p) <> [] ->
  rok (row_sons p (r0 + cpnum rt p) pb) (fun '(rnames, pb1) =>
    (forall i r, nth_error (cp_split p) i = Some r -> nth_error rnames i = Some (r0 + cpnum rt r)) /\
    lists_ok p pb1 /\
    Permutation (flat_map own (concat pb1)) (flat_map (fun e => subs (e_b e) (e_bname e)) pb)).
Proof.
  intros P HE HS. unfold row_sons. pose proof (numl_split rt p P) as NL.
  assert (LN : lnodes (cp_split p) + 1 = length (nodes (cp_c p))).
  { unfold lnodes. rewrite (nodes_eq (cp_c p)), <- (cp_split_map p). cbn [length]. rewrite !flat_map_concat_map, map_map. lia. }
  destruct (row_names p (r0 + cpnum rt p) P) as (rnames & En & Hn). rewrite En. cbn [rbind].
  rewrite (points_desc rt p Dr P). cbn [rbind]. replace (_ =? _) with true by (symmetry; apply Nat.eqb_eq; lia). cbn [rassert rbind].
  apply rok_bind. set (step := fun (pb0 : bentry K) (pb1 : list (list (bentry K))) => _).
  assert (Step : forall e, eok p e -> forall pb1, lists_ok p pb1 -> rok (step e pb1) (fun pb2 => lists_ok p pb2 /\
     Permutation (flat_map own (concat pb2)) (subs (e_b e) (e_bname e) ++ flat_map own (concat pb1)))).
  { intros e (Te & Er & Pc & Ek) pb1 L1. unfold step. set (b := e_b e) in *. rewrite Er, cp_eqb_refl. cbn [rassert rbind].
    injection Ek as Ek1 Ek2. fold b in Ek1, Ek2.
    destruct (row_cases b Te) as [(E & E1 & E2)|[(SR & E1 & E2 & l & NE & E & F)|(SR & N & E1 & C & cols & S2 & E2 & E & NE & F)]].
    - rewrite E1. change (0 * b_csons b =? 0) with true. cbn iota. cbn [rok]. split; [exact L1|]. unfold subs. rewrite E. destruct (same_row b); reflexivity.
    - assert (Ll : length l = b_csons b) by (rewrite E2, <- (cp_split_length (b_cc b)); symmetry; eapply Forall2_len, F).
      destruct (Nat.eqb_spec (b_rsons b * b_csons b) 0) as [Z|_]; [exfalso; rewrite E1 in Z; destruct l; [congruence|cbn in Ll; lia]|].
      assert (SR' := SR). unfold same_row in SR'. rewrite Er in SR'.
      assert (exists b0, bget (b_son b) 0 = Ok b0 /\ cp_eqb (b_rc b0) p = true) as (b0 & Eb0 & Eq0).
      { rewrite E in SR' |- *. destruct l as [|x l]; [congruence|]. exists x. split; [reflexivity|exact SR']. }
      rewrite Eb0. cbn [rbind]. rewrite Eq0. cbn [rok]. split; [exact L1|]. unfold subs. rewrite SR. reflexivity.
    - rewrite Er in *. assert (NR : b_rsons b <> 0) by (rewrite E1; intros Z; apply N, sons0, Z).
      assert (NC : b_csons b <> 0) by (rewrite E2; pose proof (splitting_ne _ _ S2); destruct C; [congruence|discriminate]).
      destruct (Nat.eqb_spec (b_rsons b * b_csons b) 0) as [Z|_]; [apply mul0 in Z; tauto|].
      assert (SR' := SR). unfold same_row in SR'. rewrite Er in SR'.
      assert (exists b0, bget (b_son b) 0 = Ok b0 /\ cp_eqb (b_rc b0) p = false /\ nth_error C 0 = Some (b_cc b0)) as (b0 & Eb0 & Eq0 & HC0).
      { rewrite E in SR' |- *. destruct F as [|c col C cols F0 F]; [destruct (splitting_ne _ _ S2); reflexivity|]. cbn [concat] in *.
        clear F. destruct (cp_split p) as [|r R] eqn:ER; [exfalso; apply HS; rewrite <- (cp_split_map p), ER; reflexivity|].
        inversion F0 as [|? x ? col' (X1 & X2 & X3) F1]; subst. cbn in *. exists x. split; [reflexivity|]. split; [exact SR'|reflexivity]. }
      rewrite Eb0. cbn [rbind]. rewrite Eq0, E1, Nat.eqb_refl, Ek1, Nat.eqb_refl. cbn [rassert rbind].
      destruct (splitting_num ct (b_cc b) C S2 Pc) as (d2 & _ & Q2 & N2 & L2 & _). rewrite Ek2, (Q2 _ _ HC0).
      set (R := cp_split p) in *. assert (LR : length R = cp_sons p) by apply cp_split_length.
      assert (LC : length cols = length C) by (symmetry; eapply Forall2_len, F).
      assert (Fl : Forall (fun l => length l = cp_sons p) cols).
      { apply Forall_forall. intros col Hc. destruct (forall2_in _ _ _ _ F Hc) as (c & _ & F'). rewrite <- LR. symmetry. eapply Forall2_len, F'. }
      apply rok_bind. eapply rok_conseq; [apply (rok_for (fun k '(bname1, cname1, pb2) =>
         bname1 = e_bname e + 1 + length (flat_map bnodes (concat (firstn k cols))) /\ cname1 = c0 + (cpnum ct (b_cc b) + d2) + lnodes (firstn k C) /\
         lists_ok p pb2 /\ Permutation (flat_map own (concat pb2)) (bnums (concat (firstn k cols)) (e_bname e + 1) ++ flat_map own (concat pb1)))
         _ _ _ _ (fun '(bname1, cname1, pb2) =>
         bname1 = e_bname e + 1 + length (flat_map bnodes (concat cols)) /\ cname1 = c0 + (cpnum ct (b_cc b) + d2) + lnodes C /\
         lists_ok p pb2 /\ Permutation (flat_map own (concat pb2)) (bnums (concat cols) (e_bname e + 1) ++ flat_map own (concat pb1))))|].
      + cbn. unfold lnodes. cbn. split; [lia|]. split; [lia|]. auto.
      + intros j [[bname1 cname1] pb2] Hj (H1 & H2 & H3 & H4). destruct (nth_lt cols j) as [col Hcol]; [lia|]. destruct (nth_lt C j) as [c Hc]; [lia|].
        destruct (numl_nth _ _ _ _ _ N2 Hc) as [Pcc Ncc]. pose proof (Forall2_nth _ _ _ F j c col Hc Hcol) as F0.
        assert (Lcol : length col = cp_sons p) by (rewrite Forall_forall in Fl; apply Fl; eapply nth_error_In; exact Hcol).
        assert (Hget : forall i x, nth_error col i = Some x -> bget (b_son b) (i + j * cp_sons p) = Ok x).
        { intros i x Hx. rewrite E. apply bget_some. rewrite (nth_concat cols (cp_sons p) j i col Fl Hcol); [exact Hx|]. rewrite <- Lcol. apply nth_error_Some. congruence. }
        apply rok_bind. eapply rok_conseq; [apply (rok_for (fun k '(bname2, rname2, pb3) =>
          bname2 = bname1 + length (flat_map bnodes (firstn k col)) /\ rname2 = r0 + (cpnum rt p + 1) + lnodes (firstn k R) /\
          lists_ok p pb3 /\ Permutation (flat_map own (concat pb3)) (bnums (firstn k col) bname1 ++ flat_map own (concat pb2)))
          _ _ _ _ (fun '(bname2, rname2, pb3) =>
          bname2 = bname1 + length (flat_map bnodes col) /\ rname2 = r0 + (cpnum rt p + 1) + lnodes R /\
          lists_ok p pb3 /\ Permutation (flat_map own (concat pb3)) (bnums col bname1 ++ flat_map own (concat pb2))))|].
        * cbn. unfold lnodes. cbn. split; [lia|]. split; [lia|]. auto.
        * intros i [[bname2 rname2] pb3] Hi (G1 & G2 & G3 & G4). destruct (nth_lt col i) as [x Hx]; [lia|]. destruct (nth_lt R i) as [r Hr]; [lia|].
          destruct (Forall2_nth _ _ _ F0 i r x Hr Hx) as (X1 & X2 & X3). destruct (numl_nth _ _ _ _ _ NL Hr) as [Prr Nrr].
          rewrite (Hget i x Hx). cbn [rbind]. rewrite son_split. fold R. rewrite Hr. cbn [rbind]. rewrite X1, cp_eqb_refl. cbn [rassert rbind].
          destruct (nth_lt pb3 i) as [pbi Hpbi]; [rewrite <- (Forall2_len _ _ _ G3); fold R; lia|]. rewrite Hpbi. cbn [rbind].
          assert (Er2 : rname2 = r0 + cpnum rt (b_rc x)) by (rewrite X1, Nrr; lia).
          assert (Ec2 : cname1 = c0 + cpnum ct (b_cc x)) by (rewrite X2, Ncc; lia).
          rewrite Er2, Ec2. destruct (addrow_ok x X3 ltac:(rewrite X1; exact Prr) ltac:(rewrite X2; exact Pcc) bname2 (Some e) pbi) as (E' & A1 & A2 & A3).
          rewrite A1. cbn [rbind]. rewrite (block_desc x X3), (points_desc rt r Dr Prr). cbn [rbind rok].
          rewrite (firstn_snoc _ _ _ Hx), (firstn_snoc _ _ _ Hr), lnodes_snoc, flat_map_app, app_length. cbn [flat_map]. rewrite app_nil_r.
          split; [lia|]. split; [rewrite X1, Nrr; lia|]. split.
          -- apply (lists_set p pb3 i r); [exact G3|exact Hr|]. apply Forall_app. rewrite X1 in A2. split; [exact A2|]. exact (Forall2_nth _ _ _ G3 i r pbi Hr Hpbi).
          -- rewrite (flat_map_Permutation own _ _ (concat_lupd pb3 i pbi E' Hpbi)), flat_map_app, A3, G4.
             rewrite bnums_app. cbn [bnums]. rewrite app_nil_r, G1, <- app_assoc. apply Permutation_app_swap_app.
        * intros [[bname2 rname2] pb3] (G1 & G2 & G3 & G4). rewrite firstn_all2 in G1, G4 by lia. rewrite firstn_all2 in G2 by lia. auto.
        * intros [[bname2 rname2] pb3] (G1 & G2 & G3 & G4). subst rname2. replace (_ =? _) with true by (symmetry; apply Nat.eqb_eq; lia). cbn [rassert rbind].
          destruct (nth_lt col 0) as [x Hx]; [lia|]. destruct (nth_lt R 0) as [r Hr]; [lia|]. destruct (Forall2_nth _ _ _ F0 0 r x Hr Hx) as (X1 & X2 & X3).
          pose proof (Hget 0 x Hx) as Hg. cbn [Nat.add] in Hg. rewrite Hg. cbn [rbind]. rewrite X2, (points_desc ct c Dc Pcc). cbn [rbind rok].
          rewrite (firstn_snoc _ _ _ Hcol), (firstn_snoc _ _ _ Hc), lnodes_snoc, concat_app, flat_map_app, app_length. cbn [concat]. rewrite app_nil_r.
          split; [lia|]. split; [lia|]. split; [exact G3|]. rewrite G4, H4, bnums_app, H1, <- app_assoc. apply Permutation_app_swap_app.
      + intros [[bname1 cname1] pb2] (H1 & H2 & H3 & H4). rewrite firstn_all2 in H1, H4 by lia. rewrite firstn_all2 in H2 by lia. auto.
      + intros [[bname1 cname1] pb2] (H1 & H2 & H3 & H4). rewrite (block_desc b Te). cbn [rbind]. rewrite (bnodes_eq b), E, flat_some. cbn [length].
        replace (_ =? _) with true by (symmetry; apply Nat.eqb_eq; lia). cbn [rassert rbind]. rewrite (points_desc ct _ Dc Pc). cbn [rbind].
        replace (_ =? _) with true by (symmetry; apply Nat.eqb_eq; lia). cbn [rassert rbind rok]. split; [exact H3|].
        unfold subs. rewrite SR, E, flat_self. exact H4. }
  assert (Fold : forall l, Forall (eok p) l -> forall pb1, lists_ok p pb1 -> rok (rfold step l pb1) (fun pb2 => lists_ok p pb2 /\
     Permutation (flat_map own (concat pb2)) (flat_map (fun e => subs (e_b e) (e_bname e)) l ++ flat_map own (concat pb1)))).
  { clearbody step. induction 1 as [|e l He Hl IHl]; intros pb1 L1; cbn [rfold flat_map]; [split; [exact L1|reflexivity]|].
    apply rok_bind. eapply rok_conseq; [apply Step; assumption|]. intros pb2 [L2 Q2]. eapply rok_conseq; [apply IHl; exact L2|].
    intros pb3 [L3 Q3]. split; [exact L3|]. rewrite Q3, Q2, <- app_assoc. apply Permutation_app_swap_app. }
  assert (Empty : forall n, concat (repeat (@nil (bentry K)) n) = []) by (induction n; cbn; auto).
  eapply rok_conseq; [apply Fold; [exact HE|]|].
  - unfold lists_ok. rewrite <- cp_split_length. generalize (cp_split p) as R. clear. induction R; cbn; constructor; auto.
  - intros pb2 [L2 Q2]. cbn [rok]. split; [|split; [exact L2|]].
    + intros i r Hi. destruct (numl_nth _ _ _ _ _ NL Hi) as [_ ->]. rewrite Hn; [f_equal; lia|]. rewrite <- cp_split_length. apply nth_error_Some. congruence.
    + rewrite Q2, Empty. cbn. rewrite app_nil_r. reflexivity.
Qed.

(** ** The traversal *)
Definition pres (t : ptree (lcall K)) := flat_map (fun k : lcall K => match k with LPre pb _ => map ek pb | LPost _ _ => [] end) (pcalls t).
Definition posts (t : ptree (lcall K)) := flat_map (fun k : lcall K => match k with LPre _ _ => [] | LPost pb _ => map ek pb end) (pcalls t).
Definition lentries (c : lcall K) := match c with LPre pb _ | LPost pb _ => pb end.
Definition rows_apart (c1 c2 : lcall K) : Prop :=
  forall e1 e2, In e1 (lentries c1) -> In e2 (lentries c2) -> apart_cl (cp_c (b_rc (e_b e1))) (cp_c (b_rc (e_b e2))).

Lemma own_rows p pb z : Forall (eok p) pb -> In z (flat_map own pb) -> In (cp_c (b_rc (fst (fst (fst z))))) (nodes (cp_c p)).
Proof.
  intros H Hz. apply in_flat_map in Hz as (e & He & Hz). rewrite Forall_forall in H. destruct (H e He) as (T & <- & _ & _).
  apply bnodes_clusters; [exact T|]. destruct Hz as [<-|Hz]; [apply bnodes_refl|]. unfold subs in Hz. destruct (same_row (e_b e)); [destruct Hz|].
  destruct (bnums_in _ _ _ Hz) as (x & Hx & Hz'). apply in_flat_map in Hx as ([x'|] & Hx & Hi); [destruct Hi as [<-|[]]|destruct Hi]. apply in_bnodes. right. exists x'. split; assumption.
Qed.

Lemma entries_rows p pb (t : ptree (lcall K)) (c : lcall K) e : Forall (eok p) pb -> Permutation (pres t) (flat_map own pb) -> Permutation (posts t) (flat_map own pb) ->
  In c (pcalls t) -> In e (lentries c) -> In (cp_c (b_rc (e_b e))) (nodes (cp_c p)).
Proof.
  intros H Q1 Q2 Hc He. apply (own_rows p pb (ek e) H). destruct c as [l d|l d]; cbn in He.
  - eapply Permutation_in; [exact Q1|]. apply in_flat_map. exists (LPre l d). split; [exact Hc|]. apply in_map. exact He.
  - eapply Permutation_in; [exact Q2|]. apply in_flat_map. exists (LPost l d). split; [exact Hc|]. apply in_map. exact He.
Qed.

Lemma own_split pb : Permutation (flat_map own pb) (map ek pb ++ flat_map (fun e => subs (e_b e) (e_bname e)) pb).
Proof.
  induction pb as [|e pb IH]; cbn; [reflexivity|]. constructor. rewrite IH. apply Permutation_app_swap_app.
Qed.

Lemma no_subs p pb : Forall (eok p) pb -> c_sons (cp_c p) = [] -> flat_map (fun e => subs (e_b e) (e_bname e)) pb = [].
Proof.
  induction 1 as [|e pb (T & Er & _) H IH]; intros N; cbn; [reflexivity|]. rewrite IH by exact N. rewrite app_nil_r. unfold subs.
  destruct (row_cases (e_b e) T) as [(E & _)|[(SR & _)|(_ & N' & _)]]; [rewrite E; destruct (same_row _); reflexivity|rewrite SR; reflexivity|]. rewrite Er in N'. congruence.
Qed.

Lemma iterate_rowlist_ok : partition_tree rt -> forall (rc : cluster K) path (pb : list (bentry K)) pd, points_into rt (CP path rc) -> Forall (eok (CP path rc)) pb ->
  exists t : ptree (lcall K), iterate_rowlist path rc (r0 + cpnum rt (CP path rc)) pb pd = Ok t /\ Permutation (pres t) (flat_map own pb) /\
    Permutation (posts t) (flat_map own pb) /\ par_calls rows_apart t.
Proof.
  intros PT. induction rc as [size off sons dim b1 b2 ds typ IH] using cluster_rect'. set (rc := Cl size off sons dim b1 b2 ds typ) in *.
  intros path pb pd P H. set (p := CP path rc) in *. unfold rc at 1. cbn [iterate_rowlist]. fold rc. fold p.
  destruct pb as [|e0 pb0] eqn:Epb; [exists (Pcalls []); repeat split; reflexivity|]. rewrite <- Epb in *. clear Epb e0 pb0.
  assert (G : exists body, (if 0 <? length sons then
      let* (rnames, pb1) := row_sons p (r0 + cpnum rt p) pb in
      let* l := (fix go l i := match l with
        | [] => Ok []
        | s :: l' =>
          let* rn := (match nth_error rnames i with Some x => Ok x | None => Err EBounds end) in
          let* pbi := (match nth_error pb1 i with Some x => Ok x | None => Err EBounds end) in
          let* t := iterate_rowlist (i :: path) s rn pbi (if 0 <? pd then pd - 1 else 0) in
          let* ts := go l' (S i) in
          Ok (t :: ts)
        end) sons 0 in
      Ok (ploop (0 <? pd) l) else Ok (Pcalls [])) = Ok body /\
      Permutation (pres body) (flat_map (fun e => subs (e_b e) (e_bname e)) pb) /\ Permutation (posts body) (flat_map (fun e => subs (e_b e) (e_bname e)) pb) /\ par_calls rows_apart body).
  { destruct (Nat.ltb_spec 0 (length sons)) as [NL|NL].
    2:{ exists (Pcalls []). rewrite (no_subs p pb H) by (apply length_zero_iff_nil; change (c_sons (cp_c p)) with sons; lia). repeat split; reflexivity. }
    - assert (NS : c_sons (cp_c p) <> []) by (change (c_sons (cp_c p)) with sons; intros X; rewrite X in NL; cbn in NL; lia).
      destruct (rok_inv _ _ (row_sons_ok p pb P H NS)) as ([rnames pb1] & -> & Hn & L1 & Q1). cbn [rbind].
      set (pd' := if 0 <? pd then pd - 1 else 0).
      assert (G : forall l k, (forall j, nth_error l j = nth_error sons (k + j)) -> k + length l = length sons ->
         exists ts, (fix go l i := match l with
        | [] => Ok []
        | s :: l' =>
          let* rn := (match nth_error rnames i with Some x => Ok x | None => Err EBounds end) in
          let* pbi := (match nth_error pb1 i with Some x => Ok x | None => Err EBounds end) in
          let* t := iterate_rowlist (i :: path) s rn pbi pd' in
          let* ts := go l' (S i) in
          Ok (t :: ts)
        end) l k = Ok ts /\ length ts = length l /\ forall j (t : ptree (lcall K)), nth_error ts j = Some t -> exists r pbj, nth_error (cp_split p) (k + j) = Some r /\
            nth_error pb1 (k + j) = Some pbj /\ Permutation (pres t) (flat_map own pbj) /\ Permutation (posts t) (flat_map own pbj) /\ par_calls rows_apart t).
      { induction l as [|s l IHl]; intros k Hl Ll; [exists []; split; [reflexivity|]; split; [reflexivity|]; intros [|j] t Hj; discriminate|].
        pose proof (Hl 0) as Hs. cbn in Hs. rewrite Nat.add_0_r in Hs. symmetry in Hs.
        assert (Hr : nth_error (cp_split p) k = Some (CP (k :: path) s)) by (rewrite cp_split_nth; change (c_sons (cp_c p)) with sons; rewrite Hs; reflexivity).
        rewrite (Hn _ _ Hr). cbn [rbind]. destruct (nth_lt pb1 k) as [pbk Hk]; [rewrite <- (Forall2_len _ _ _ L1), cp_split_length; apply nth_error_Some; change (c_sons (cp_c p)) with sons; congruence|].
        rewrite Hk. cbn [rbind]. rewrite Forall_forall in IH.
        destruct (IH s (nth_error_In _ _ Hs) (k :: path) pbk pd') as (t & Et & T1 & T2 & T3).
        { eapply (numl_nth rt _ _ _ _ (numl_split rt p P) Hr). }
        { exact (Forall2_nth _ _ _ L1 k _ _ Hr Hk). }
        rewrite Et. cbn [rbind]. destruct (IHl (S k)) as (ts & -> & Lt & Ht); [intros j; pose proof (Hl (S j)) as Hj; cbn in Hj; rewrite Hj; f_equal; lia|cbn in Ll; lia|]. cbn [rbind].
        exists (t :: ts). split; [reflexivity|]. split; [cbn; congruence|]. intros [|j] t' Hj; cbn in Hj.
        - injection Hj as <-. rewrite Nat.add_0_r. eauto 8.
        - destruct (Ht j t' Hj) as (r & pbj & ?). exists r, pbj. replace (k + S j) with (S k + j) by lia. assumption. }
      destruct (G sons 0 (fun j => eq_refl) eq_refl) as (ts & Ets & Lt & Ht). cbn [Nat.add] in Ht.
      rewrite Ets. cbn [rbind]. exists (ploop (0 <? pd) ts). split; [reflexivity|].
      assert (Lp : length ts = length pb1) by (rewrite Lt, <- (Forall2_len _ _ _ L1), cp_split_length; reflexivity).
      assert (F2 : Forall2 (fun (t : ptree (lcall K)) pbj => Permutation (pres t) (flat_map own pbj) /\ Permutation (posts t) (flat_map own pbj)) ts pb1).
      { clear - Lp Ht. revert pb1 Lp Ht. generalize (cp_split p) as R. induction ts as [|t ts IHt]; intros R pb1 Lp Ht; destruct pb1 as [|pb0 pb1]; try discriminate; constructor.
        - destruct (Ht 0 t eq_refl) as (r & pbj & _ & E & ? & ? & _). injection E as <-. auto.
        - apply (IHt (tl R)); [cbn in Lp; lia|]. intros j t' Hj. destruct (Ht (S j) t' Hj) as (r & pbj & Hr & E & ?). exists r, pbj. split; [destruct R; [discriminate|exact Hr]|]. split; [exact E|assumption]. }
      split; [|split].
      + unfold pres. rewrite pcalls_loop. rewrite <- Q1. clear - F2. induction F2 as [|t pbj ts pb1 [A _] F2 IHf]; cbn [flat_map concat]; [reflexivity|].
        rewrite !flat_map_app. apply Permutation_app; assumption.
      + unfold posts. rewrite pcalls_loop. rewrite <- Q1. clear - F2. induction F2 as [|t pbj ts pb1 [_ A] F2 IHf]; cbn [flat_map concat]; [reflexivity|].
        rewrite !flat_map_app. apply Permutation_app; assumption.
      + apply par_loop; [intros t Hin; apply In_nth_error in Hin as [j Hj]; destruct (Ht j t Hj) as (? & ? & ? & ? & ? & ? & ?); assumption|].
        assert (PP : partition_tree (cp_c p)) by (intros s Hs; apply PT; eapply nodes_trans; [apply points_nodes; exact P|exact Hs]).
        apply fop_nth. intros i j t u Hij Hi Hj c1 c2 H1 H2 e1 e2 He1 He2.
        destruct (Ht i t Hi) as (ri & pbi & Hri & Hpi & A1 & A2 & _). destruct (Ht j u Hj) as (rj & pbj & Hrj & Hpj & B1 & B2 & _).
        pose proof (entries_rows ri pbi t c1 e1 (Forall2_nth _ _ _ L1 _ _ _ Hri Hpi) A1 A2 H1 He1) as N1.
        pose proof (entries_rows rj pbj u c2 e2 (Forall2_nth _ _ _ L1 _ _ _ Hrj Hpj) B1 B2 H2 He2) as N2.
        left. exact (split_apart p i j ri rj PP Hri Hrj Hij _ _ N1 N2). }
  destruct G as (body & -> & B1 & B2 & B3). cbn [rbind]. eexists. split; [reflexivity|]. split; [|split].
  - unfold pres in *. cbn [pcalls]. rewrite !flat_map_app. cbn [flat_map app]. rewrite !app_nil_r, B1. symmetry. apply own_split.
  - unfold posts in *. cbn [pcalls]. rewrite !flat_map_app. cbn [flat_map app]. rewrite !app_nil_r, B2, own_split. apply Permutation_app_comm.
  - cbn [par_calls]. auto.
Qed.


Lemma blocklist_pre (c : lcall K) : flat_map (fun k : blcall K => match k with BPre x n rn cn _ => [(x, n, rn, cn)] | BPost _ _ _ _ _ => [] end) (blocklist c) =
  match c with LPre pb _ => rev (map ek pb) | LPost _ _ => [] end.
Proof.
  destruct c as [l d|l d]; cbn.
  - induction l as [|e l IH]; cbn; [reflexivity|]. rewrite flat_map_app, IH. reflexivity.
  - induction l as [|e l IH]; cbn; [reflexivity|exact IH].
Qed.
Lemma blocklist_post (c : lcall K) : flat_map (fun k : blcall K => match k with BPre _ _ _ _ _ => [] | BPost x n rn cn _ => [(x, n, rn, cn)] end) (blocklist c) =
  match c with LPre _ _ => [] | LPost pb _ => map ek pb end.
Proof.
  destruct c as [l d|l d]; cbn.
  - induction l as [|e l IH]; cbn; [reflexivity|]. rewrite flat_map_app, IH. reflexivity.
  - induction l as [|e l IH]; cbn; [reflexivity|]. rewrite IH. reflexivity.
Qed.
Lemma blocklist_in (c : lcall K) (x : blcall K) : In x (blocklist c) -> exists e, In e (lentries c) /\ call_block x = e_b e.
Proof.
  destruct c as [l d|l d]; cbn; induction l as [|e l IH]; cbn; try tauto.
  - intros H. apply in_app_or in H as [H|[<-|[]]]; [destruct (IH H) as (e' & ? & ?); exists e'; auto|]. exists e. auto.
  - intros [<-|H]; [exists e; auto|]. destruct (IH H) as (e' & ? & ?); exists e'; auto.
Qed.
Lemma bpres_bind (t : ptree (lcall K)) : Permutation (bpres (pbind blocklist t)) (pres t).
Proof.
  unfold bpres, pres. rewrite pcalls_bind. induction (pcalls t) as [|c l IH]; cbn; [reflexivity|]. rewrite flat_map_app, IH. apply Permutation_app_tail.
  rewrite blocklist_pre. destruct c; [symmetry; apply Permutation_rev|reflexivity].
Qed.
Lemma bposts_bind (t : ptree (lcall K)) : bposts (pbind blocklist t) = posts t.
Proof.
  unfold bposts, posts. rewrite pcalls_bind. induction (pcalls t) as [|c l IH]; cbn; [reflexivity|]. rewrite flat_map_app, IH, blocklist_post. reflexivity.
Qed.

Lemma iterate_byrow_ok b n pd : partition_tree rt -> block_tree b -> points_into rt (b_rc b) -> points_into ct (b_cc b) ->
  exists t : ptree (blcall K), iterate_byrow_block b n (r0 + cpnum rt (b_rc b)) (c0 + cpnum ct (b_cc b)) pd = Ok t /\
    Permutation (bpres t) (bnum b n) /\ Permutation (bposts t) (bnum b n) /\
    par_calls (fun u v => apart_cl (cp_c (b_rc (call_block u))) (cp_c (b_rc (call_block v)))) t.
Proof.
  intros PT T P1 P2. unfold iterate_byrow_block. destruct (addrow_ok b T P1 P2 n None []) as (E & -> & A2 & A3). rewrite app_nil_r. cbn [rbind].
  destruct (iterate_rowlist_ok PT (cp_c (b_rc b)) (cp_path (b_rc b)) E pd) as (t & Et & T1 & T2 & T3); try (rewrite cp_eta; assumption).
  rewrite cp_eta in Et. rewrite Et. cbn [rbind]. eexists. split; [reflexivity|]. split; [rewrite bpres_bind, T1; exact A3|]. split; [rewrite bposts_bind, T2; exact A3|].
  eapply par_bind; [|exact T3]. cbn. intros c1 c2 x y H Hx Hy. destruct (blocklist_in c1 x Hx) as (e1 & He1 & ->). destruct (blocklist_in c2 y Hy) as (e2 & He2 & ->).
  apply H; assumption.
Qed.
End Rows.
