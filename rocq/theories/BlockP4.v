(** * Proofs about numbering and depth-first traversal of block trees *)
From Coq Require Import Arith Lia List Bool Permutation.
From Verif Require Import Fld Ord Prog Arr Loop Cluster ClusterSpec ClusterP ClusterP4 ClusterP5 Block BlockSpec BlockP BlockP2 BlockP3.
Import ListNotations.

(** ** Loops over grids *)
Lemma rfor_shift {S} k (body : nat -> S -> res S) n : forall lo s, rfor lo n (fun i => body (i + k)) s = rfor (lo + k) n body s.
Proof. induction n as [|n IH]; intros lo s; cbn; [reflexivity|]. destruct (body (lo + k) s); cbn; [apply IH|reflexivity]. Qed.

Lemma rfor_grid {S} r (body : nat -> S -> res S) c : forall s,
  rfor 0 c (fun j st => rfor 0 r (fun i st => body (i + j * r) st) st) s = rfor 0 (c * r) body s.
Proof.
  induction c as [|c IH]; intros s; [reflexivity|]. replace (Datatypes.S c) with (c + 1) by lia.
  rewrite rfor_app, IH. replace ((c + 1) * r) with (c * r + r) by lia. rewrite rfor_app.
  destruct (rfor 0 (c * r) body s) as [s1|e]; cbn [rbind rfor Nat.add]; [|reflexivity].
  rewrite <- (rfor_shift (c * r) body r 0). cbn [Nat.add]. destruct (rfor 0 r _ s1); reflexivity.
Qed.

Lemma bget_some {A} (l : list A) k x : nth_error l k = Some x -> bget (map Some l) k = Ok x.
Proof. intros H. unfold bget. rewrite nth_error_map, H. reflexivity. Qed.

Lemma bget_recs {A B} (f : A -> B) (l : list A) k x : nth_error l k = Some x ->
  bget (map (fun o => match o with Some b1 => Some (b1, f b1) | None => None end) (map Some l)) k = Ok (x, f x).
Proof. intros H. unfold bget. rewrite map_map, nth_error_map, H. reflexivity. Qed.

(** Loops over all sons. *)
Lemma rfor_sons {A S} (l : list A) r c (body : nat -> nat -> S -> res S) (h : A -> S -> res S) s : length l = r * c ->
  (forall i j x st, i < r -> j < c -> nth_error l (i + j * r) = Some x -> body i j st = h x st) ->
  rfor 0 c (fun j st => rfor 0 r (fun i => body i j) st) s = rfold h l s.
Proof.
  intros L H. transitivity (rfor 0 (c * r) (fun k st => match nth_error l k with Some x => h x st | None => Ok st end) s).
  - rewrite <- (rfor_grid r). apply rfor_ext. intros j s1 Hj. apply rfor_ext. intros i s2 Hi.
    destruct (nth_error l (i + j * r)) as [x|] eqn:E; [apply H; [lia|lia|exact E]|].
    apply nth_error_None in E. pose proof (flat_lt i j r c ltac:(lia) ltac:(lia)). lia.
  - replace (c * r) with (length l) by lia. apply rfor_list. intros k x Hk s1. cbn [Nat.add]. rewrite Hk. reflexivity.
Qed.

(** Filling an array. *)
Lemma fill_seq {A} (l : list A) : forall n (a : arr A), n + length l <= length a ->
  rfold (fun '(i, x) a => aset a i x) (combine (seq n (length l)) l) a = Ok (firstn n a ++ map Some l ++ skipn (n + length l) a).
Proof.
  induction l as [|x l IH]; intros n a L; cbn [length seq combine rfold map app] in *.
  - rewrite Nat.add_0_r, firstn_skipn. reflexivity.
  - unfold aset. destruct (Nat.ltb_spec n (length a)); [|lia]. cbn [rbind]. rewrite IH by (rewrite lupd_length; lia).
    f_equal. assert (F : firstn (S n) (lupd a n (Some x)) = firstn n a ++ [Some x]).
    { assert (L2 : n < length a) by lia. clear - L2. revert n L2. induction a as [|y a IH]; intros n H; cbn in H; [lia|].
      destruct n as [|n]; [reflexivity|]. cbn [lupd]. change (firstn (S (S n)) (y :: lupd a n (Some x))) with (y :: firstn (S n) (lupd a n (Some x))).
      rewrite IH by lia. reflexivity. }
    rewrite F, <- app_assoc. cbn [app]. do 3 f_equal. replace (n + S (length l)) with (S n + length l) by lia.
    assert (G : forall (a : arr A) k m, k < m -> skipn m (lupd a k (Some x)) = skipn m a).
    { clear. induction a as [|y a IH]; intros k m Hm; [destruct k; reflexivity|]. destruct m as [|m]; [lia|].
      destruct k as [|k]; [reflexivity|]. cbn. apply IH. lia. }
    apply G. lia.
Qed.

Lemma combine_seq_app {A} (l1 l2 : list A) n :
  combine (seq n (length (l1 ++ l2))) (l1 ++ l2) = combine (seq n (length l1)) l1 ++ combine (seq (n + length l1) (length l2)) l2.
Proof. rewrite app_length, seq_app, combine_app' by apply seq_length. reflexivity. Qed.

Section Numbering.
Context {K : ofops}.
Implicit Types (b s x : block K) (t : cluster K) (p q rc cc r c : cptr K).

Lemma block_desc b : block_tree b -> bdesc b = Ok (length (bnodes b)).
Proof. intros T. unfold bdesc. rewrite (proj1 (T b (bnodes_refl b))). reflexivity. Qed.

(** The sons of a block as one list. *)
Lemma block_sons b : block_tree b -> exists l, b_son b = map Some l /\ length l = b_rsons b * b_csons b /\
  (forall s, In s l -> block_tree s) /\ (l = [] <-> b_rsons b * b_csons b = 0).
Proof.
  intros T. destruct (block_cases b T) as [(E & E1 & E2)|(R & C & cols & S1 & S2 & _ & E1 & E2 & E & F & Hs & NE)].
  - exists []. rewrite E, E1, E2. split; [reflexivity|]. split; [reflexivity|]. split; [intros s []|]. cbn. tauto.
  - exists (concat cols). split; [exact E|].
    assert (L : length (concat cols) = b_rsons b * b_csons b).
    { rewrite (concat_length _ (length R)).
      - rewrite E1, E2, (Forall2_len _ _ _ F). lia.
      - apply Forall_forall. intros col Hc. destruct (forall2_in _ _ _ _ F Hc) as (c & _ & F'). symmetry. eapply Forall2_len, F'. }
    split; [exact L|]. split.
    + intros s H. apply in_concat in H as (col & Hc & H). eapply Hs; eassumption.
    + rewrite <- L. destruct (concat cols); cbn; [tauto|]. split; intros; congruence || lia.
Qed.

(** ** Enumeration *)
Lemma benumerate_fold b : block_tree b -> forall n a,
  benumerate b n a = rfold (fun '(i, x) a => aset a i x) (combine (seq n (length (bnodes b))) (bnodes b)) a.
Proof.
  induction b as [rc cc ad rs cs son ds IH] using block_rect'. set (b := Blk rc cc ad rs cs son ds) in *. intros T n a.
  unfold b at 1. cbn [benumerate]. fold b. destruct (block_sons b T) as (l & El & Ll & Tl & _).
  change (b_son b) with son in El. change (b_rsons b) with rs in Ll. change (b_csons b) with cs in Ll.
  rewrite bnodes_eq. change (b_son b) with son. cbn [length seq combine rfold].
  destruct (aset a n b) as [a1|e]; cbn [rbind]; [|reflexivity].
  assert (Ef : forall l0, (forall s, In s l0 -> In (Some s) son /\ block_tree s) -> forall m a0,
    rfold (fun x st => let '(bname1, bn) := st in let* bn := benumerate x bname1 bn in let* d := bdesc x in Ok (bname1 + d, bn)) l0 (m, a0)
    = let* a' := rfold (fun '(i, x) a => aset a i x) (combine (seq m (length (flat_map bnodes l0))) (flat_map bnodes l0)) a0 in
      Ok (m + length (flat_map bnodes l0), a')).
  { induction l0 as [|s l0 IHl]; intros Hl m a0; cbn [rfold flat_map]; [cbn; rewrite Nat.add_0_r; reflexivity|].
    destruct (Hl s (or_introl eq_refl)) as [Hs Ts]. rewrite (IH s Hs Ts), combine_seq_app, rfold_app.
    destruct (rfold _ _ a0) as [a2|e]; cbn [rbind]; [|reflexivity]. rewrite (block_desc s Ts). cbn [rbind].
    rewrite IHl by (intros; apply Hl; right; assumption). destruct (rfold _ _ a2); cbn [rbind]; [|reflexivity].
    rewrite app_length. do 2 f_equal. lia. }
  replace (rfor 0 cs _ (n + 1, a1)) with
    (rfold (fun x st => let '(bname1, bn) := st in let* bn := benumerate x bname1 bn in let* d := bdesc x in Ok (bname1 + d, bn)) l (n + 1, a1)).
  - rewrite Ef by (intros s Hs; split; [rewrite El; apply in_map; exact Hs|auto]).
    rewrite El, flat_some. replace (S n) with (n + 1) by lia. destruct (rfold _ _ a1) as [a2|e]; cbn [rbind]; [|reflexivity].
    rewrite (block_desc b T). cbn [rbind]. rewrite bnodes_eq. change (b_son b) with son. rewrite El, flat_some. cbn [length].
    replace (n + 1 + _ =? _) with true by (symmetry; apply Nat.eqb_eq; lia). reflexivity.
  - rewrite El. symmetry. apply rfor_sons; [exact Ll|]. intros i j x [m a0] Hi Hj Hx. rewrite (bget_recs benumerate l _ x Hx). reflexivity.
Qed.

Lemma blevels_eq b : blevels b = 0 :: map S (flat_map (ol blevels) (b_son b)).
Proof. destruct b. reflexivity. Qed.

Lemma blevels_length b : length (blevels b) = length (bnodes b).
Proof.
  induction b as [rc cc ad rs cs son ds IH] using block_rect'. rewrite blevels_eq, bnodes_eq. cbn [b_son length]. f_equal.
  rewrite map_length. induction son as [|[s|] son IHl]; cbn [flat_map ol length]; [reflexivity| |].
  - rewrite !app_length, (IH s (or_introl eq_refl)), IHl by (intros; apply IH; right; assumption). reflexivity.
  - apply IHl. intros; apply IH; right; assumption.
Qed.

Lemma flat_levels_length (l : list (block K)) : length (flat_map blevels l) = length (flat_map bnodes l).
Proof. induction l as [|x l IH]; cbn; [reflexivity|]. rewrite !app_length, blevels_length, IH. reflexivity. Qed.

Lemma benumerate_level_fold b : block_tree b -> forall n a (p : nat),
  benumerate_level b n a p = rfold (fun '(i, x) a => aset a i x) (combine (seq n (length (blevels b))) (map (fun l => p + 1 + l) (blevels b))) a.
Proof.
  induction b as [rc cc ad rs cs son ds IH] using block_rect'. set (b := Blk rc cc ad rs cs son ds) in *. intros T n a p.
  unfold b at 1. cbn [benumerate_level]. fold b. destruct (block_sons b T) as (l & El & Ll & Tl & _).
  change (b_son b) with son in El. change (b_rsons b) with rs in Ll. change (b_csons b) with cs in Ll.
  rewrite blevels_eq. change (b_son b) with son. cbn [length seq map combine rfold]. rewrite Nat.add_0_r.
  destruct (aset a n (p + 1)) as [a1|e]; cbn [rbind]; [|reflexivity].
  assert (Ef : forall l0, (forall s, In s l0 -> In (Some s) son /\ block_tree s) -> forall m a0,
    rfold (fun x st => let '(bname1, bn) := st in let* bn := benumerate_level x bname1 bn (p + 1) in let* d := bdesc x in Ok (bname1 + d, bn)) l0 (m, a0)
    = let* a' := rfold (fun '(i, x) a => aset a i x) (combine (seq m (length (flat_map blevels l0))) (map (fun l => p + 1 + 1 + l) (flat_map blevels l0))) a0 in
      Ok (m + length (flat_map bnodes l0), a')).
  { induction l0 as [|s l0 IHl]; intros Hl m a0; cbn [rfold flat_map]; [cbn; rewrite Nat.add_0_r; reflexivity|].
    destruct (Hl s (or_introl eq_refl)) as [Hs Ts]. rewrite (IH s Hs Ts), map_app, app_length, seq_app, combine_app', rfold_app by (rewrite seq_length, map_length; reflexivity).
    destruct (rfold _ _ a0) as [a2|e]; cbn [rbind]; [|reflexivity]. rewrite (block_desc s Ts). cbn [rbind].
    rewrite IHl by (intros; apply Hl; right; assumption). rewrite blevels_length. destruct (rfold _ _ a2); cbn [rbind]; [|reflexivity].
    rewrite app_length. do 2 f_equal. lia. }
  replace (rfor 0 cs _ (n + 1, a1)) with
    (rfold (fun x st => let '(bname1, bn) := st in let* bn := benumerate_level x bname1 bn (p + 1) in let* d := bdesc x in Ok (bname1 + d, bn)) l (n + 1, a1)).
  - rewrite Ef by (intros s Hs; split; [rewrite El; apply in_map; exact Hs|auto]).
    rewrite El, flat_some, map_length, map_map. replace (S n) with (n + 1) by lia.
    rewrite (map_ext (fun l => p + 1 + 1 + l) (fun x : nat => p + 1 + S x)) by (intros; lia).
    destruct (rfold _ _ a1) as [a2|e]; cbn [rbind]; [|reflexivity].
    rewrite (block_desc b T). cbn [rbind]. rewrite bnodes_eq. change (b_son b) with son. rewrite El, flat_some. cbn [length].
    replace (n + 1 + _ =? _) with true by (symmetry; apply Nat.eqb_eq; lia). reflexivity.
  - rewrite El. symmetry. apply rfor_sons; [exact Ll|]. intros i j x [m a0] Hi Hj Hx. rewrite (bget_recs benumerate_level l _ x Hx). reflexivity.
Qed.

Lemma enumerate_block_ok b : block_tree b -> enumerate_block b = Ok (map Some (bnodes b)).
Proof.
  intros T. unfold enumerate_block. rewrite (block_desc b T). cbn [rbind]. rewrite benumerate_fold by exact T.
  rewrite fill_seq by (unfold anew; rewrite repeat_length; lia). cbn [firstn app Nat.add].
  rewrite skipn_all2 by (unfold anew; rewrite repeat_length; lia). rewrite app_nil_r. reflexivity.
Qed.

Lemma enumerate_level_ok b : block_tree b -> enumerate_level_block b = Ok (map Some (map S (blevels b))).
Proof.
  intros T. unfold enumerate_level_block. rewrite (block_desc b T). cbn [rbind]. rewrite benumerate_level_fold by exact T.
  rewrite <- (map_length (fun l => 0 + 1 + l) (blevels b)).
  rewrite fill_seq by (unfold anew; rewrite repeat_length, map_length, blevels_length; lia). cbn [firstn app Nat.add].
  rewrite skipn_all2 by (unfold anew; rewrite repeat_length, map_length, blevels_length; lia). rewrite app_nil_r. reflexivity.
Qed.

(** ** Depth *)
Lemma getdepth_block_ok b : block_tree b -> exists d, getdepth_block b = Ok d /\ In d (blevels b) /\ forall l, In l (blevels b) -> l <= d.
Proof.
  induction b as [rc cc ad rs cs son ds IH] using block_rect'. set (b := Blk rc cc ad rs cs son ds) in *. intros T.
  unfold b at 1. cbn [getdepth_block]. destruct (block_sons b T) as (l & El & Ll & Tl & NE).
  change (b_son b) with son in El. change (b_rsons b) with rs in Ll, NE. change (b_csons b) with cs in Ll, NE.
  rewrite blevels_eq. change (b_son b) with son. rewrite El, flat_some.
  destruct (Nat.eqb_spec (rs * cs) 0) as [E0|N0].
  { apply NE in E0. subst l. exists 0. split; [reflexivity|]. split; [left; reflexivity|]. intros k [<-|[]]. lia. }
  assert (Ef : forall l0, (forall s, In s l0 -> In (Some s) son /\ block_tree s) -> forall p : nat, exists d,
    rfold (fun x (p : nat) => let* k := getdepth_block x in Ok (Nat.max p k)) l0 p = Ok d /\
    p <= d /\ (d = p \/ In d (flat_map blevels l0)) /\ (forall k, In k (flat_map blevels l0) -> k <= d)).
  { induction l0 as [|s l0 IHl]; intros Hl p; cbn [rfold flat_map]; [exists p; repeat split; auto; intros k []|].
    destruct (Hl s (or_introl eq_refl)) as [Hs Ts]. destruct (IH s Hs Ts) as (d & -> & D1 & D2). cbn [rbind].
    destruct (IHl ltac:(intros; apply Hl; right; assumption) (Nat.max p d)) as (d' & -> & D3 & D4 & D5).
    exists d'. split; [reflexivity|]. split; [lia|]. split.
    - destruct D4 as [->|D4]; [|right; apply in_or_app; auto]. destruct (Nat.max_spec p d) as [[? ->]|[? ->]]; [right; apply in_or_app; auto|auto].
    - intros k Hk. apply in_app_or in Hk as [Hk|Hk]; [specialize (D2 k Hk); lia|auto]. }
  destruct (Ef l ltac:(intros s Hs; split; [rewrite El; apply in_map; exact Hs|auto]) 0) as (d & E & D1 & D2 & D3).
  replace (rfor 0 cs _ 0) with (rfold (fun x (p : nat) => let* k := getdepth_block x in Ok (Nat.max p k)) l 0).
  - rewrite E. cbn [rbind]. exists (d + 1). split; [reflexivity|]. split.
    + right. apply in_map_iff. exists d. split; [lia|]. destruct D2 as [->|D2]; [|exact D2].
      destruct l as [|s l]; [destruct N0; apply NE; reflexivity|]. cbn. apply in_or_app. left. rewrite blevels_eq. left. reflexivity.
    + intros k [<-|Hk]; [lia|]. apply in_map_iff in Hk as (k' & <- & Hk). specialize (D3 k' Hk). lia.
  - symmetry. apply rfor_sons; [exact Ll|]. intros i j x st Hi Hj Hx. rewrite (bget_recs getdepth_block l _ x Hx). reflexivity.
Qed.
End Numbering.
