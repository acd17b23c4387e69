(** * Coverage, and the lower triangular constructions *)
From Coq Require Import Arith Lia List Bool Permutation.
From Verif Require Import Fld Ord Prog Arr Loop Cluster ClusterSpec ClusterP ClusterP4 ClusterP5 Block BlockSpec BlockP BlockP2.
Import ListNotations.

(** ** Products of lists *)
Lemma list_prod_app_l {A B} (l1 l2 : list A) (m : list B) : list_prod (l1 ++ l2) m = list_prod l1 m ++ list_prod l2 m.
Proof. induction l1 as [|x l1 IH]; cbn; [reflexivity|]. rewrite IH, app_assoc. reflexivity. Qed.

Lemma list_prod_app_r {A B} (l : list A) (m1 m2 : list B) :
  Permutation (list_prod l (m1 ++ m2)) (list_prod l m1 ++ list_prod l m2).
Proof.
  induction l as [|x l IH]; cbn; [constructor|]. rewrite map_app, <- !app_assoc. apply Permutation_app_head.
  rewrite IH. apply Permutation_app_swap_app.
Qed.

Lemma list_prod_flat_l {A B X} (F : X -> list A) (m : list B) R :
  flat_map (fun r => list_prod (F r) m) R = list_prod (flat_map F R) m.
Proof. induction R as [|r R IH]; cbn; [reflexivity|]. rewrite list_prod_app_l, IH. reflexivity. Qed.

Lemma list_prod_nil {A B} (l : list A) : list_prod l (@nil B) = [].
Proof. induction l; cbn; auto. Qed.

Lemma list_prod_flat {A B X Y} (F : X -> list A) (G : Y -> list B) R C :
  Permutation (flat_map (fun c => flat_map (fun r => list_prod (F r) (G c)) R) C) (list_prod (flat_map F R) (flat_map G C)).
Proof.
  induction C as [|c C IH]; cbn; [rewrite list_prod_nil; constructor|].
  rewrite list_prod_flat_l, list_prod_app_r. apply Permutation_app_head. exact IH.
Qed.

Lemma flat_map_perm {A B} (f g : A -> list B) l : (forall x, In x l -> Permutation (f x) (g x)) ->
  Permutation (flat_map f l) (flat_map g l).
Proof.
  induction l as [|x l IH]; cbn; intros H; [constructor|]. apply Permutation_app; [apply H; left; reflexivity|].
  apply IH. intros y Hy. apply H. right. exact Hy.
Qed.

Lemma flat_map_concat' {A B} (f : A -> list B) ls : flat_map f (concat ls) = flat_map (flat_map f) ls.
Proof. induction ls as [|l ls IH]; cbn; [reflexivity|]. rewrite flat_map_app, IH. reflexivity. Qed.

Lemma flat_map_flat_map {A B C} (f : A -> list B) (g : B -> list C) l :
  flat_map g (flat_map f l) = flat_map (fun x => flat_map g (f x)) l.
Proof. induction l as [|x l IH]; cbn; [reflexivity|]. rewrite flat_map_app, IH. reflexivity. Qed.

Lemma filter_flat_map {A B} (p : B -> bool) (f : A -> list B) l :
  filter p (flat_map f l) = flat_map (fun x => filter p (f x)) l.
Proof. induction l as [|x l IH]; cbn; [reflexivity|]. rewrite filter_app, IH. reflexivity. Qed.

Lemma map_flat_map {A B C} (f : A -> list B) (g : B -> C) l : map g (flat_map f l) = flat_map (fun x => map g (f x)) l.
Proof. induction l as [|x l IH]; cbn; [reflexivity|]. rewrite map_app, IH. reflexivity. Qed.

Lemma flat_map_ext_in {A B} (f g : A -> list B) l : (forall x, In x l -> f x = g x) -> flat_map f l = flat_map g l.
Proof.
  induction l as [|x l IH]; cbn; intros H; [reflexivity|]. rewrite (H x (or_introl eq_refl)), IH; [reflexivity|].
  intros y Hy. apply H. right. exact Hy.
Qed.

Lemma gridl_flat {A A' B} (h : A -> list B) (h' : A' -> list B) r c g g' :
  (forall i j, i < r -> j < c -> h (g i j) = h' (g' i j)) ->
  flat_map h (gridl r c g) = flat_map h' (gridl r c g').
Proof.
  intros H. unfold gridl. rewrite !flat_map_concat', !flat_map_concat_map, !map_map. f_equal.
  apply map_ext_in. intros j Hj. apply in_seq in Hj. rewrite !flat_map_concat_map, !map_map. f_equal.
  apply map_ext_in. intros i Hi. apply in_seq in Hi. apply H; lia.
Qed.

Section Cover.
Context {K : ofops}.
Implicit Types (b s x : block K) (t : cluster K) (p rc cc r c : cptr K).

Lemma block_sub b s : block_tree b -> In (Some s) (b_son b) -> block_tree s.
Proof. intros T H x Hx. apply T. apply in_bnodes. right. eauto. Qed.

(** The sons of a block as a list of columns. *)
Lemma block_cases b : block_tree b ->
  (b_son b = [] /\ b_rsons b = 0 /\ b_csons b = 0) \/
  exists R C cols, splitting (b_rc b) R /\ splitting (b_cc b) C /\ ~ (R = [b_rc b] /\ C = [b_cc b]) /\
     b_rsons b = length R /\ b_csons b = length C /\ b_son b = map Some (concat cols) /\
     Forall2 (fun c col => Forall2 (fun r s => b_rc s = r /\ b_cc s = c) R col) C cols /\
     (forall col s, In col cols -> In s col -> block_tree s /\ In (b_rc s) R /\ In (b_cc s) C) /\ concat cols <> [].
Proof.
  intros T. destruct (T b (bnodes_refl b)) as [_ [(H1 & H2 & H3)|(R & C & cols & H)]]; [left; auto|right].
  destruct H as (S1 & S2 & N & E1 & E2 & E3 & F). exists R, C, cols. repeat (split; [assumption|]). split.
  - intros col s Hcol Hs. assert (T' : block_tree s).
    { apply (block_sub b); [exact T|]. rewrite E3. apply in_map. apply in_concat. eauto. }
    split; [exact T'|]. destruct (forall2_in _ _ _ _ F Hcol) as (c & Hc & F'). destruct (forall2_in _ _ _ _ F' Hs) as (r & Hr & -> & ->). auto.
  - pose proof (splitting_ne _ _ S1). pose proof (splitting_ne _ _ S2). destruct F as [|c col C' cols' F1 F2]; [congruence|].
    destruct F1; [congruence|]. discriminate.
Qed.

Lemma splitting_indices f p l : partition_tree (cp_c p) -> splitting p l -> flat_map (fun q => indices f (cp_c q)) l = indices f (cp_c p).
Proof.
  intros P [->|[N ->]]; [cbn; apply app_nil_r|].
  assert (E : flat_map (fun q => indices f (cp_c q)) (cp_split p) = flat_map (indices f) (map (@cp_c K) (cp_split p))).
  { rewrite !flat_map_concat_map, map_map. reflexivity. }
  rewrite E, cp_split_map. unfold indices at 2. apply indices_app. apply (proj2 (P _ (nodes_refl _)) N).
Qed.

Lemma splitting_part p l q : partition_tree (cp_c p) -> splitting p l -> In q l -> partition_tree (cp_c q).
Proof.
  intros P [->|[N ->]]; [intros [<-|[]]; exact P|]. intros H. apply (part_sub (cp_c p)); [exact P|]. apply split_in. exact H.
Qed.

Lemma cover f g b : block_tree b -> partition_tree (cp_c (b_rc b)) -> partition_tree (cp_c (b_cc b)) ->
  Permutation (flat_map (bpairs f g) (bleaves b)) (bpairs f g b).
Proof.
  induction b as [rc cc a rs cs son ds IH] using block_rect'. set (b := Blk rc cc a rs cs son ds) in *.
  intros T P1 P2. destruct (block_cases b T) as [(E & _)|(R & C & cols & S1 & S2 & _ & _ & _ & E & F & Hs & NE)].
  - rewrite bleaves_eq, E. cbn. rewrite app_nil_r. apply Permutation_refl.
  - assert (EL : bleaves b = flat_map bleaves (concat cols)).
    { rewrite bleaves_eq, E. destruct (map Some (concat cols)) as [|o l] eqn:EM; [destruct (concat cols); [congruence|discriminate]|].
      rewrite <- EM, flat_some. reflexivity. }
    rewrite EL, flat_map_flat_map.
    assert (EX : Permutation (flat_map (fun s => flat_map (bpairs f g) (bleaves s)) (concat cols)) (flat_map (bpairs f g) (concat cols))).
    { apply flat_map_perm. intros s Hin. apply in_concat in Hin as (col & Hc & Hin). destruct (Hs _ _ Hc Hin) as (Ts & Hr & Hcc).
      apply IH; [change son with (b_son b); rewrite E; apply in_map; apply in_concat; eauto|exact Ts| |].
      - eapply splitting_part; [exact P1|exact S1|exact Hr].
      - eapply splitting_part; [exact P2|exact S2|exact Hcc]. }
    rewrite EX. rewrite flat_map_concat'.
    unfold bpairs at 2. rewrite <- (splitting_indices f _ _ P1 S1), <- (splitting_indices g _ _ P2 S2), <- list_prod_flat.
    clear - F. induction F as [|c col C cols F0 F IH]; cbn; [constructor|]. apply Permutation_app; [|exact IH]. clear - F0.
    induction F0 as [|r s R col [E1 E2] F0 IH]; cbn; [constructor|]. apply Permutation_app; [|exact IH].
    unfold bpairs. rewrite E1, E2. reflexivity.
Qed.

(** Clusters of sub-blocks are descendants. *)
Lemma nodes_trans t (s u : cluster K) : In s (nodes t) -> In u (nodes s) -> In u (nodes t).
Proof.
  revert s. induction t as [size off sons dim b1 b2 ds typ IH] using cluster_rect'. intros s Hs Hu.
  apply in_nodes in Hs as [->|(c & Hc & Hs)]; [exact Hu|]. apply in_nodes. right. exists c. split; [exact Hc|].
  rewrite Forall_forall in IH. eapply IH; eassumption.
Qed.

Lemma splitting_nodes p l q : splitting p l -> In q l -> In (cp_c q) (nodes (cp_c p)).
Proof. intros [->|[N ->]]; [intros [<-|[]]; apply nodes_refl|]. intros H. apply son_nodes. apply split_in. exact H. Qed.

Lemma bnodes_clusters b : block_tree b -> forall x, In x (bnodes b) ->
  In (cp_c (b_rc x)) (nodes (cp_c (b_rc b))) /\ In (cp_c (b_cc x)) (nodes (cp_c (b_cc b))).
Proof.
  induction b as [rc cc a rs cs son ds IH] using block_rect'. set (b := Blk rc cc a rs cs son ds) in *.
  intros T x Hx. apply in_bnodes in Hx as [->|(s & Hs & Hx)]; [split; apply nodes_refl|].
  destruct (block_cases b T) as [(E & _)|(R & C & cols & S1 & S2 & _ & _ & _ & E & F & Hc & NE)]; [rewrite E in Hs; destruct Hs|].
  assert (Hs' := Hs). rewrite E in Hs'. apply in_map_iff in Hs' as (s' & Es & Hs'). injection Es as ->.
  apply in_concat in Hs' as (col & Hcol & Hs'). destruct (Hc _ _ Hcol Hs') as (Ts & Hr & Hcc).
  destruct (IH s Hs Ts x Hx) as [I1 I2]. split.
  - eapply nodes_trans; [|exact I1]. eapply splitting_nodes; eassumption.
  - eapply nodes_trans; [|exact I2]. eapply splitting_nodes; eassumption.
Qed.
End Cover.

(** ** Lower triangular constructions *)
Section Lower.
Context {K : ofops}.
Implicit Types (b s x : block K) (t : cluster K) (p rc cc r c : cptr K).
Variable admis : cluster K -> cluster K -> res bool.
Variable A : cluster K -> cluster K -> bool.

Definition fl (lower full : cptr K -> cptr K -> res (block K)) rc cc (i j : nat) : res (block K) :=
  let* r := cp_son rc i in
  let* c := cp_son cc j in
  if i <? j then update_block (new_block r c true 0 0) else if i =? j then lower r c else full r c.

Lemma fill_lower_grid lower full rc cc a nr nc g : nc <= nr ->
  (forall i j, i < nr -> j < nc -> fl lower full rc cc i j = Ok (g i j)) ->
  fill_lower lower full rc cc nr nc (new_block rc cc a nr nc) = Ok (Blk rc cc a nr nc (map Some (gridl nr nc g)) None).
Proof.
  intros Hle Hf. assert (G : rok (fill_lower lower full rc cc nr nc (new_block rc cc a nr nc)) (filled (fun _ _ => True) g rc cc a nr nc)).
  { unfold fill_lower. apply (rok_for (fun k => filled (fun _ j => j < k) g rc cc a nr nc)).
    - apply filled_new. intros; lia.
    - intros j b Hj Hb.
      assert (Step : forall i b1 (D : nat -> nat -> Prop) (X : res (block K)), i < nr -> X = fl lower full rc cc i j ->
        filled D g rc cc a nr nc b1 ->
        rok (let* s := X in set_son b1 (i + j * nr) s) (filled (fun i' j' => (i' = i /\ j' = j) \/ D i' j') g rc cc a nr nc)).
      { intros i b1 D X Hi -> Hb1. rewrite Hf by lia. cbn [rbind]. eapply (filled_set D g rc cc a nr nc b1 i j); [lia|lia|exact Hb1]. }
      apply rok_bind. apply (rok_for (fun k => filled (fun i' j' => j' < j \/ (j' = j /\ i' < k)) g rc cc a nr nc)).
      + eapply filled_weak; [exact Hb|]. cbn; intros; lia.
      + intros i b1 Hi Hb1. eapply rok_conseq.
        * replace (let* r := cp_son rc i in _) with
            (let* s := (let* r := cp_son rc i in let* c := cp_son cc j in update_block (new_block r c true 0 0)) in set_son b1 (i + j * nr) s).
          -- eapply Step; [lia| |exact Hb1]. unfold fl. destruct (Nat.ltb_spec i j); [reflexivity|lia].
          -- destruct (cp_son rc i); cbn [rbind]; [|reflexivity]. destruct (cp_son cc j); reflexivity.
        * intros b2 H2. eapply filled_weak; [exact H2|]. cbn; intros; lia.
      + intros b1 Hb1. apply rok_bind. eapply rok_conseq.
        * replace (let* r := cp_son rc j in _) with
            (let* s := (let* r := cp_son rc j in let* c := cp_son cc j in lower r c) in set_son b1 (j + j * nr) s).
          -- eapply Step; [lia| |exact Hb1]. unfold fl. destruct (Nat.ltb_spec j j); [lia|]. rewrite Nat.eqb_refl. reflexivity.
          -- destruct (cp_son rc j); cbn [rbind]; [|reflexivity]. destruct (cp_son cc j); reflexivity.
        * intros b2 H2. cbn in H2. apply (rok_for (fun k => filled (fun i' j' => j' < j \/ (j' = j /\ i' < k)) g rc cc a nr nc)).
          -- eapply filled_weak; [exact H2|]. cbn; intros; lia.
          -- intros i b3 Hi Hb3. eapply rok_conseq.
             ++ replace (let* r := cp_son rc i in _) with
                  (let* s := (let* r := cp_son rc i in let* c := cp_son cc j in full r c) in set_son b3 (i + j * nr) s).
                ** eapply Step; [lia| |exact Hb3]. unfold fl. destruct (Nat.ltb_spec i j); [lia|]. destruct (Nat.eqb_spec i j); [lia|]. reflexivity.
                ** destruct (cp_son rc i); cbn [rbind]; [|reflexivity]. destruct (cp_son cc j); reflexivity.
             ++ intros b4 H4. eapply filled_weak; [exact H4|]. cbn; intros; lia.
          -- intros b3 Hb3. eapply filled_weak; [exact Hb3|]. cbn; intros; lia.
    - intros b Hb. eapply filled_weak; [exact Hb|]. cbn; intros; lia. }
  apply rok_inv in G as (b & E & H). rewrite E. f_equal. apply filled_all. exact H.
Qed.

Definition lower_keys b := map leaf_key (filter below (bleaves b)).

Definition lower_node (strict : bool) x : Prop :=
  (below x = true -> full_node A strict x) /\ (below x = false -> b_a x = true /\ b_son x = []).

Lemma made_impl (P Q : block K -> Prop) rc cc b : made P rc cc b -> (forall x, In x (bnodes b) -> P x -> Q x) -> made Q rc cc b.
Proof. intros (H1 & H2 & H3 & H4) H. repeat (split; [assumption|]). auto. Qed.

Lemma keys_node rc cc a nr nc (G : list (block K)) ds : G <> [] ->
  lower_keys (Blk rc cc a nr nc (map Some G) ds) = flat_map lower_keys G.
Proof.
  intros N. unfold lower_keys. rewrite bleaves_eq. cbn [b_son].
  destruct (map Some G) as [|o l] eqn:E; [destruct G; [congruence|discriminate]|]. rewrite <- E, flat_some.
  rewrite filter_flat_map, map_flat_map. reflexivity.
Qed.

(** Consecutive sons. *)
Lemma tiles_order (l : list (cluster K)) : forall off size i j (s u : cluster K), tiles off size l -> i < j ->
  nth_error l i = Some s -> nth_error l j = Some u -> c_off s + c_size s <= c_off u.
Proof.
  induction l as [|s0 l IH]; intros off size i j s u T H Hi Hj; [destruct i; discriminate|].
  cbn in T. destruct T as (T1 & T2 & T3). destruct j as [|j]; [lia|]. cbn in Hj. destruct i as [|i]; cbn in Hi.
  - injection Hi as ->. destruct (tiles_in _ _ _ _ T3 (nth_error_In _ _ Hj)). lia.
  - eapply (IH _ _ i j); try eassumption. lia.
Qed.

Lemma split_order p i j r c : partition_tree (cp_c p) -> nth_error (cp_split p) i = Some r -> nth_error (cp_split p) j = Some c ->
  i < j -> forall x y : cluster K, In x (nodes (cp_c r)) -> In y (nodes (cp_c c)) -> c_off x < c_off y.
Proof.
  intros P Hi Hj H x y Hx Hy. rewrite cp_split_nth in Hi, Hj.
  destruct (nth_error (c_sons (cp_c p)) i) as [s|] eqn:Ei; [|discriminate]. injection Hi as <-.
  destruct (nth_error (c_sons (cp_c p)) j) as [u|] eqn:Ej; [|discriminate]. injection Hj as <-. cbn [cp_c] in *.
  assert (N : c_sons (cp_c p) <> []) by (intros N; rewrite N in Ei; destruct i; discriminate).
  pose proof (tiles_order _ _ _ _ _ _ _ (proj2 (P _ (nodes_refl _)) N) H Ei Ej) as O.
  assert (Ps : partition_tree s) by (apply (part_sub (cp_c p)); [exact P|eapply nth_error_In; exact Ei]).
  assert (Pu : partition_tree u) by (apply (part_sub (cp_c p)); [exact P|eapply nth_error_In; exact Ej]).
  assert (W1 := nodes_within s (fun z Hz => proj2 (Ps z Hz)) x Hx).
  assert (W2 := nodes_within u (fun z Hz => proj2 (Pu z Hz)) y Hy).
  pose proof (proj1 (Ps x Hx)). lia.
Qed.

(** The construction of the sons of a diagonal block. *)
Lemma lower_step (strict : bool) p (lower full : cptr K -> cptr K -> res (block K)) d :
  partition_tree (cp_c p) -> cp_sons p <> 0 -> A (cp_c p) (cp_c p) = false ->
  (forall r, In r (cp_split p) -> rok (lower r r) (fun bl => made (lower_node strict) r r bl /\
      rok (full r r) (fun bf => made (full_node A strict) r r bf /\ lower_keys bl = lower_keys bf))) ->
  (forall r c, In r (cp_split p) -> In c (cp_split p) -> rok (full r c) (made (full_node A strict) r c)) ->
  let n := cp_sons p in
  let f := fun i j => let* r := cp_son p i in let* c := cp_son p j in full r c in
  let Gf := gridl n n (gof d f) in
  let Gl := gridl n n (gof d (fl lower full p p)) in
  (forall i j, i < n -> j < n -> f i j = Ok (gof d f i j)) /\
  update_block (Blk p p false n n (map Some Gf) None) = Ok (Blk p p false n n (map Some Gf) (Some (S (length (flat_map bnodes Gf))))) /\
  made (full_node A strict) p p (Blk p p false n n (map Some Gf) (Some (S (length (flat_map bnodes Gf))))) /\
  (forall i j, i < n -> j < n -> fl lower full p p i j = Ok (gof d (fl lower full p p) i j)) /\
  update_block (Blk p p false n n (map Some Gl) None) = Ok (Blk p p false n n (map Some Gl) (Some (S (length (flat_map bnodes Gl))))) /\
  made (lower_node strict) p p (Blk p p false n n (map Some Gl) (Some (S (length (flat_map bnodes Gl))))) /\
  lower_keys (Blk p p false n n (map Some Gl) (Some (S (length (flat_map bnodes Gl))))) =
  lower_keys (Blk p p false n n (map Some Gf) (Some (S (length (flat_map bnodes Gf))))).
Proof.
  intros P N EA HL HF n f Gf Gl.
  assert (SP : splitting p (cp_split p)) by (right; split; [intros E; apply N, sons0, E|reflexivity]).
  assert (NT : ~ (cp_split p = [p] /\ cp_split p = [p])) by (intros [E _]; apply (split_ne _ E)).
  assert (Root : forall son ds, son <> [] -> full_node A strict (Blk p p false (length (cp_split p)) (length (cp_split p)) son ds)).
  { intros son ds Hs. split; [symmetry; exact EA|]. split; [discriminate|]. split; [contradiction|].
    intros _. cbn [b_rsons b_csons b_rc b_cc]. rewrite !cp_split_length, !max1 by assumption. auto. }
  assert (In2 : forall i q, nth_error (cp_split p) i = Some q -> In q (cp_split p)) by (intros i q; apply nth_error_In).
  destruct (node_ok (full_node A strict) p p false (cp_split p) (cp_split p) d f SP SP NT) as (F1 & F2 & F3 & F4).
  { intros i j r c Hi Hj. unfold f. rewrite !son_split, Hi, Hj. cbn [rbind]. apply HF; eapply In2; eassumption. }
  { intros son ds Hs _. exact (Root son ds Hs). }
  assert (Bel : forall i j r c, nth_error (cp_split p) i = Some r -> nth_error (cp_split p) j = Some c -> i <> j ->
    forall x, block_tree x -> b_rc x = r -> b_cc x = c -> forall y, In y (bnodes x) -> below y = (j <? i)).
  { intros i j r c Hi Hj Nij x Tx E1 E2 y Hy. destruct (bnodes_clusters x Tx y Hy) as [I1 I2]. rewrite E1 in I1. rewrite E2 in I2.
    unfold below. destruct (Nat.ltb_spec j i) as [L|L].
    - pose proof (split_order p j i c r P Hj Hi L _ _ I2 I1). apply Nat.leb_le. lia.
    - assert (L' : i < j) by lia. pose proof (split_order p i j r c P Hi Hj L' _ _ I1 I2). apply Nat.leb_gt. lia. }
  destruct (node_ok (lower_node strict) p p false (cp_split p) (cp_split p) d (fl lower full p p) SP SP NT) as (L1 & L2 & L3 & L4).
  { intros i j r c Hi Hj. unfold fl. rewrite !son_split, Hi, Hj. cbn [rbind].
    destruct (Nat.ltb_spec i j) as [Lij|Lij]; [|destruct (Nat.eqb_spec i j) as [->|Nij]].
    - rewrite update_leaf. cbn [rok]. pose proof (leaf_ok (fun _ => True) r c true I) as M. rewrite update_leaf in M. cbn [rok] in M.
      eapply made_impl; [exact M|]. intros x Hx _.
      rewrite (Bel i j r c Hi Hj ltac:(lia) _ (proj1 (proj2 (proj2 M))) eq_refl eq_refl x Hx) || idtac.
      split; intros B; rewrite (Bel i j r c Hi Hj ltac:(lia) _ (proj1 (proj2 (proj2 M))) eq_refl eq_refl x Hx) in B.
      + apply Nat.ltb_lt in B. lia.
      + destruct Hx as [<-|[]]. auto.
    - rewrite Hi in Hj. injection Hj as <-. eapply rok_conseq; [apply HL; eapply In2; exact Hi|]. cbn. tauto.
    - eapply rok_conseq; [apply HF; eapply In2; eassumption|]. intros b M. eapply made_impl; [exact M|]. intros x Hx Hn.
      destruct M as (E1 & E2 & T & _). split; [auto|]. intros B. rewrite (Bel i j r c Hi Hj Nij b T E1 E2 x Hx) in B.
      apply Nat.ltb_ge in B. lia. }
  { intros son ds Hs _. split; [intros _; apply Root; exact Hs|]. unfold below. cbn [b_rc b_cc]. rewrite Nat.leb_refl. discriminate. }
  rewrite cp_split_length in *. fold n in F1, F2, F3, F4, L1, L2, L3, L4. fold Gf in F2, F3, F4. fold Gl in L2, L3, L4.
  repeat (split; [assumption|]). rewrite !keys_node by assumption. unfold Gl, Gf. apply gridl_flat. intros i j Hi Hj.
  assert (exists r, nth_error (cp_split p) i = Some r) as [r Er].
  { destruct (nth_error (cp_split p) i) eqn:E; [eauto|]. apply nth_error_None in E. rewrite cp_split_length in E. unfold n in Hi. lia. }
  assert (exists c, nth_error (cp_split p) j = Some c) as [c Ec].
  { destruct (nth_error (cp_split p) j) eqn:E; [eauto|]. apply nth_error_None in E. rewrite cp_split_length in E. unfold n in Hj. lia. }
  pose proof (L1 i j Hi Hj) as EL. pose proof (F1 i j Hi Hj) as EF.
  set (vl := gof d (fl lower full p p) i j) in *. set (vf := gof d f i j) in *. clearbody vl vf. unfold f in EF. unfold fl in EL. rewrite !son_split, Er, Ec in EL, EF. cbn [rbind] in EL, EF.
  destruct (Nat.ltb_spec i j) as [Lij|Lij]; [|destruct (Nat.eqb_spec i j) as [->|Nij]].
  - (* above the diagonal: no keys *)
    assert (Z : forall b, made (fun _ => True) r c b -> lower_keys b = []).
    { intros b (E1 & E2 & T & _). unfold lower_keys.
      assert (Q : filter below (bleaves b) = []).
      { assert (Q : forall l, (forall x, In x l -> below x = false) -> filter below l = []).
        { induction l as [|x l IHl]; intros Hx; cbn; [reflexivity|]. rewrite (Hx x (or_introl eq_refl)). apply IHl. intros; apply Hx; right; assumption. }
        apply Q. intros x Hx. apply bleaves_in in Hx as [Hx _]. rewrite (Bel i j r c Er Ec ltac:(lia) b T E1 E2 x Hx). apply Nat.ltb_ge. lia. }
      rewrite Q. reflexivity. }
    rewrite (Z vl), (Z vf); [reflexivity| |].
    + pose proof (HF r c (In2 _ _ Er) (In2 _ _ Ec)) as M. rewrite EF in M. eapply made_impl; [exact M|auto].
    + pose proof (leaf_ok (fun _ => True) r c true I) as M. rewrite EL in M. exact M.
  - rewrite Er in Ec. injection Ec as <-. pose proof (HL r (In2 _ _ Er)) as M. rewrite EL, EF in M. apply M.
  - rewrite EL in EF. injection EF as ->. reflexivity.
Qed.

Lemma rok_nonstrict_lower fuel : forall p, adm_ok admis A (cp_c p) (cp_c p) -> partition_tree (cp_c p) ->
  getdepth (cp_c p) + getdepth (cp_c p) < fuel ->
  rok (build_nonstrict_lower admis fuel p p) (fun bl => made (lower_node false) p p bl /\
    rok (build_nonstrict admis fuel p p) (fun bf => made (full_node A false) p p bf /\ lower_keys bl = lower_keys bf)).
Proof.
  induction fuel as [|fuel IH]; intros p HA HP HF; [lia|]. cbn [build_nonstrict_lower build_nonstrict].
  rewrite (HA _ _ (nodes_refl _) (nodes_refl _)). cbn [rbind].
  assert (Leaf : forall a, full_node A false (Blk p p a 0 0 [] (Some 1)) ->
    rok (update_block (new_block p p a 0 0)) (fun bl => made (lower_node false) p p bl /\
      rok (update_block (new_block p p a 0 0)) (fun bf => made (full_node A false) p p bf /\ lower_keys bl = lower_keys bf))).
  { intros a Ha. pose proof (leaf_ok _ p p a Ha) as M. rewrite update_leaf in *. cbn [rok] in *. split; [|split; [exact M|reflexivity]].
    eapply made_impl; [exact M|]. intros x Hx Hn. destruct Hx as [<-|[]]. split; [auto|]. unfold below. cbn [b_rc b_cc]. rewrite Nat.leb_refl. discriminate. }
  destruct (A (cp_c p) (cp_c p)) eqn:EA; cbn [negb].
  { apply Leaf. split; [symmetry; exact EA|]. split; [reflexivity|]. split; [discriminate|]. intros N. destruct (N eq_refl). }
  destruct (Nat.eqb_spec (cp_sons p * cp_sons p) 0) as [E|N].
  { apply Leaf. split; [symmetry; exact EA|]. split; [discriminate|]. split; [|intros X; destruct (X eq_refl)]. intros _ _. apply mul0 in E. rewrite !sons0 in E. exact E. }
  assert (Np : cp_sons p <> 0) by (intros E; apply N; rewrite E; reflexivity).
  destruct (lower_step false p (build_nonstrict_lower admis fuel) (build_nonstrict admis fuel) (new_block p p false 0 0) HP Np EA)
    as (F1 & F2 & F3 & L1 & L2 & L3 & L4).
  - intros r Hr. pose proof (split_in _ _ Hr) as Hr'. apply IH.
    + eapply adm_sub; [exact HA|apply son_nodes; exact Hr'|apply son_nodes; exact Hr'].
    + apply (part_sub (cp_c p)); assumption.
    + pose proof (depth_son _ _ Hr'). lia.
  - intros r c Hr Hc. pose proof (split_in _ _ Hr) as Hr'. pose proof (split_in _ _ Hc) as Hc'. apply rok_nonstrict.
    + eapply adm_sub; [exact HA|apply son_nodes; exact Hr'|apply son_nodes; exact Hc'].
    + pose proof (depth_son _ _ Hr'). pose proof (depth_son _ _ Hc'). lia.
  - rewrite (fill_lower_grid _ _ p p false _ _ _ (le_n _) L1). cbn [rbind]. rewrite L2. cbn [rok]. split; [exact L3|].
    rewrite (rfor_ext 0 (cp_sons p) _ (fun i b => rfor 0 (cp_sons p) (fun j b =>
      let* s := (let* r := cp_son p i in let* c := cp_son p j in build_nonstrict admis fuel r c) in set_son b (i + j * cp_sons p) s) b)).
    + rewrite (fill_grid _ p p false _ _ _ F1). cbn [rbind]. rewrite F2. cbn [rok]. split; [exact F3|exact L4].
    + intros i s Hi. apply rfor_ext. intros j s' Hj. destruct (cp_son p i); cbn [rbind]; [|reflexivity]. destruct (cp_son p j); reflexivity.
Qed.

Lemma rok_strict_lower fuel : forall p, adm_ok admis A (cp_c p) (cp_c p) -> partition_tree (cp_c p) ->
  getdepth (cp_c p) + getdepth (cp_c p) < fuel ->
  rok (build_strict_lower admis fuel p p) (fun bl => made (lower_node true) p p bl /\
    rok (build_strict admis fuel p p) (fun bf => made (full_node A true) p p bf /\ lower_keys bl = lower_keys bf)).
Proof.
  induction fuel as [|fuel IH]; intros p HA HP HF; [lia|]. cbn [build_strict_lower build_strict].
  rewrite (HA _ _ (nodes_refl _) (nodes_refl _)). cbn [rbind].
  assert (Leaf : forall a, full_node A true (Blk p p a 0 0 [] (Some 1)) ->
    rok (update_block (new_block p p a 0 0)) (fun bl => made (lower_node true) p p bl /\
      rok (update_block (new_block p p a 0 0)) (fun bf => made (full_node A true) p p bf /\ lower_keys bl = lower_keys bf))).
  { intros a Ha. pose proof (leaf_ok _ p p a Ha) as M. rewrite update_leaf in *. cbn [rok] in *. split; [|split; [exact M|reflexivity]].
    eapply made_impl; [exact M|]. intros x Hx Hn. destruct Hx as [<-|[]]. split; [auto|]. unfold below. cbn [b_rc b_cc]. rewrite Nat.leb_refl. discriminate. }
  destruct (A (cp_c p) (cp_c p)) eqn:EA; cbn [negb].
  { cbn [rbind]. apply Leaf. split; [symmetry; exact EA|]. split; [reflexivity|]. split; [discriminate|]. intros N. destruct (N eq_refl). }
  destruct (Nat.eqb_spec (cp_sons p) 0) as [E|Np].
  { cbn [rbind]. apply Leaf. split; [symmetry; exact EA|]. split; [discriminate|]. split; [|intros X; destruct (X eq_refl)]. intros _ _. rewrite sons0 in E. cbn [b_rc b_cc]. split; exact E. }
  destruct (lower_step true p (build_strict_lower admis fuel) (build_strict admis fuel) (new_block p p false 0 0) HP Np EA)
    as (F1 & F2 & F3 & L1 & L2 & L3 & L4).
  - intros r Hr. pose proof (split_in _ _ Hr) as Hr'. apply IH.
    + eapply adm_sub; [exact HA|apply son_nodes; exact Hr'|apply son_nodes; exact Hr'].
    + apply (part_sub (cp_c p)); assumption.
    + pose proof (depth_son _ _ Hr'). lia.
  - intros r c Hr Hc. pose proof (split_in _ _ Hr) as Hr'. pose proof (split_in _ _ Hc) as Hc'. apply rok_strict.
    + eapply adm_sub; [exact HA|apply son_nodes; exact Hr'|apply son_nodes; exact Hc'].
    + pose proof (depth_son _ _ Hr'). pose proof (depth_son _ _ Hc'). lia.
  - cbn zeta. rewrite (fill_lower_grid _ _ p p false _ _ _ (le_n _) L1). cbn [rbind]. rewrite L2. cbn [rok]. split; [exact L3|].
    rewrite (rfor_ext 0 (cp_sons p) _ (fun i b => rfor 0 (cp_sons p) (fun j b =>
      let* s := (let* r := cp_son p i in let* c := cp_son p j in build_strict admis fuel r c) in set_son b (i + j * cp_sons p) s) b)).
    + rewrite (fill_grid _ p p false _ _ _ F1). cbn [rbind]. rewrite F2. cbn [rok]. split; [exact F3|exact L4].
    + intros i s Hi. apply rfor_ext. intros j s' Hj. destruct (cp_son p i); cbn [rbind]; [|reflexivity]. destruct (cp_son p j); reflexivity.
Qed.
End Lower.
