(** * Properties C10-C12: block trees *)
From Coq Require Import Arith Lia List Bool Permutation.
From Verif Require Import Fld Ord Inst OrdInst Prog Arr Loop Cluster ClusterSpec ClusterP ClusterP4 ClusterP5 Block BlockSpec
  BlockP BlockP2 BlockP3 BlockP4 BlockP5 BlockP6.
Import ListNotations.

(** The admissibility condition [admis] can be evaluated for all pairs of
    clusters of the two trees and gives [A]. *)
Definition evaluates {K : ofops} (admis : cluster K -> cluster K -> res bool) (A : cluster K -> cluster K -> bool)
  (rt ct : cluster K) : Prop :=
  forall r c, In r (nodes rt) -> In c (nodes ct) -> admis r c = Ok (A r c).

(** ** C10: the leaves partition the matrix *)

(** For all cluster trees and conditions the recursion ends (the recursion depth
    is at most the sum of the depths), without any memory error.  [f] and [g]
    are the index arrays: every pair of a row index and a column index of the
    root belongs to exactly one leaf.  A leaf is marked admissible iff the
    condition holds, an inadmissible leaf has a row or a column cluster that is
    not subdivided, and only inadmissible blocks are subdivided. *)
Theorem C10_build_nonstrict {K : ofops} admis A (rt ct : cluster K) f g fuel :
  partition_tree rt -> partition_tree ct -> evaluates admis A rt ct -> getdepth rt + getdepth ct < fuel ->
  exists b, build_nonstrict admis fuel (CP [] rt) (CP [] ct) = Ok b /\
    Permutation (flat_map (bpairs f g) (bleaves b)) (list_prod (indices f rt) (indices g ct)) /\
    (forall x, In x (bnodes b) ->
       In (cp_c (b_rc x)) (nodes rt) /\ In (cp_c (b_cc x)) (nodes ct) /\
       b_a x = A (cp_c (b_rc x)) (cp_c (b_cc x)) /\
       (b_a x = true -> b_son x = []) /\
       (b_a x = false -> b_son x = [] -> c_sons (cp_c (b_rc x)) = [] \/ c_sons (cp_c (b_cc x)) = [])) /\
    b_rc b = CP [] rt /\ b_cc b = CP [] ct /\ block_tree b.
Proof.
  intros P1 P2 HA HF. pose proof (rok_nonstrict admis A fuel (CP [] rt) (CP [] ct) HA HF) as H.
  apply rok_inv in H as (b & E & E1 & E2 & T & HN). exists b. split; [exact E|].
  assert (Q1 : partition_tree (cp_c (b_rc b))) by (rewrite E1; exact P1).
  assert (Q2 : partition_tree (cp_c (b_cc b))) by (rewrite E2; exact P2).
  split; [|split; [|auto]].
  - pose proof (cover f g b T Q1 Q2) as C. unfold bpairs at 2 in C. rewrite E1, E2 in C. exact C.
  - intros x Hx. destruct (bnodes_clusters b T x Hx) as [I1 I2]. rewrite E1 in I1. rewrite E2 in I2.
    destruct (HN x Hx) as (N1 & N2 & N3 & _). auto.
Qed.
Print Assumptions C10_build_nonstrict.

(** The strict construction: both clusters of an inadmissible leaf are leaves. *)
Theorem C10_build_strict {K : ofops} admis A (rt ct : cluster K) f g fuel :
  partition_tree rt -> partition_tree ct -> evaluates admis A rt ct -> getdepth rt + getdepth ct < fuel ->
  exists b, build_strict admis fuel (CP [] rt) (CP [] ct) = Ok b /\
    Permutation (flat_map (bpairs f g) (bleaves b)) (list_prod (indices f rt) (indices g ct)) /\
    (forall x, In x (bnodes b) ->
       In (cp_c (b_rc x)) (nodes rt) /\ In (cp_c (b_cc x)) (nodes ct) /\
       b_a x = A (cp_c (b_rc x)) (cp_c (b_cc x)) /\
       (b_a x = true -> b_son x = []) /\
       (b_a x = false -> b_son x = [] -> c_sons (cp_c (b_rc x)) = [] /\ c_sons (cp_c (b_cc x)) = [])) /\
    b_rc b = CP [] rt /\ b_cc b = CP [] ct /\ block_tree b.
Proof.
  intros P1 P2 HA HF. pose proof (rok_strict admis A fuel (CP [] rt) (CP [] ct) HA HF) as H.
  apply rok_inv in H as (b & E & E1 & E2 & T & HN). exists b. split; [exact E|].
  assert (Q1 : partition_tree (cp_c (b_rc b))) by (rewrite E1; exact P1).
  assert (Q2 : partition_tree (cp_c (b_cc b))) by (rewrite E2; exact P2).
  split; [|split; [|auto]].
  - pose proof (cover f g b T Q1 Q2) as C. unfold bpairs at 2 in C. rewrite E1, E2 in C. exact C.
  - intros x Hx. destruct (bnodes_clusters b T x Hx) as [I1 I2]. rewrite E1 in I1. rewrite E2 in I2.
    destruct (HN x Hx) as (N1 & N2 & N3 & _). auto.
Qed.
Print Assumptions C10_build_strict.

(** "Exactly once" spelled out: if the index arrays do not repeat indices, no
    pair occurs twice. *)
Theorem C10_exactly_once {K : ofops} (b : block K) f g :
  block_tree b -> partition_tree (cp_c (b_rc b)) -> partition_tree (cp_c (b_cc b)) ->
  NoDup (indices f (cp_c (b_rc b))) -> NoDup (indices g (cp_c (b_cc b))) ->
  forall i j, In i (indices f (cp_c (b_rc b))) -> In j (indices g (cp_c (b_cc b))) ->
  exists l1 x l2, bleaves b = l1 ++ x :: l2 /\ In (i, j) (bpairs f g x) /\
    forall y, In y (l1 ++ l2) -> ~ In (i, j) (bpairs f g y).
Proof.
  intros T P1 P2 N1 N2 i j Hi Hj. pose proof (cover f g b T P1 P2) as C.
  assert (N : NoDup (flat_map (bpairs f g) (bleaves b))).
  { apply (Permutation_NoDup (Permutation_sym C)). unfold bpairs. revert N1. generalize (indices f (cp_c (b_rc b))) as l.
    induction l as [|x l IH]; intros N; cbn; [constructor|]. inversion N as [|? ? Nx Nl]; subst. clear - N2 Nx Nl IH.
    assert (G : forall l1 l2 : list (nat * nat), NoDup l1 -> NoDup l2 -> (forall z, In z l1 -> ~ In z l2) -> NoDup (l1 ++ l2)).
    { induction l1 as [|z l1 IH1]; intros l2 A1 A2 A3; cbn; [exact A2|]. inversion A1; subst. constructor.
      - rewrite in_app_iff. intros [H|H]; [auto|]. apply (A3 z); [left; reflexivity|exact H].
      - apply IH1; [assumption|assumption|]. intros; apply A3; right; assumption. }
    apply G; [apply FinFun.Injective_map_NoDup; [intros a a' E; congruence|exact N2]|apply IH; exact Nl|].
    intros z Hz Hz'. apply in_map_iff in Hz as (y & <- & _). apply in_prod_iff in Hz' as [Hz' _]. auto. }
  assert (I : In (i, j) (flat_map (bpairs f g) (bleaves b))).
  { apply (Permutation_in _ (Permutation_sym C)). unfold bpairs. apply in_prod; assumption. }
  apply in_flat_map in I as (x & Hx & I). apply in_split in Hx as (l1 & l2 & E). exists l1, x, l2. split; [exact E|]. split; [exact I|].
  intros y Hy Hy2. rewrite E, flat_map_app in N. cbn [flat_map] in N.
  assert (G : forall (l l' : list (nat * nat)) z, NoDup (l ++ l') -> In z l -> ~ In z l').
  { induction l as [|a l IH]; intros l' z A Hz; [destruct Hz|]. cbn in A. inversion A as [|? ? X1 X2]; subst. destruct Hz as [->|Hz]; [|eapply IH; eassumption].
    intros A2. apply X1. apply in_app_iff. auto. }
  apply in_app_iff in Hy as [Hy|Hy].
  - apply (G _ _ (i, j) N); [apply in_flat_map; eauto|apply in_app_iff; left; exact I].
  - assert (N' : NoDup (bpairs f g x ++ flat_map (bpairs f g) l2)).
    { revert N. generalize (flat_map (bpairs f g) l1) as l. induction l as [|a l IH]; cbn; intros A; [exact A|]. inversion A; auto. }
    apply (G _ _ (i, j) N'); [exact I|apply in_flat_map; eauto].
Qed.
Print Assumptions C10_exactly_once.

(** ** C11: lower triangular block trees *)

(** If the row and column cluster trees coincide, build_nonstrict_lower_block
    succeeds, its leaves cover every pair of indices exactly once, on and below
    the diagonal they are the leaves of build_nonstrict_block, and a block above
    the diagonal is a leaf marked admissible. *)
Theorem C11_nonstrict_lower {K : ofops} admis A (t : cluster K) f g fuel :
  partition_tree t -> evaluates admis A t t -> getdepth t + getdepth t < fuel ->
  exists bl b, build_nonstrict_lower admis fuel (CP [] t) (CP [] t) = Ok bl /\
    build_nonstrict admis fuel (CP [] t) (CP [] t) = Ok b /\
    map leaf_key (filter below (bleaves bl)) = map leaf_key (filter below (bleaves b)) /\
    (forall x, In x (bnodes bl) -> below x = false -> b_son x = [] /\ b_a x = true) /\
    Permutation (flat_map (bpairs f g) (bleaves bl)) (list_prod (indices f t) (indices g t)) /\ block_tree bl.
Proof.
  intros P HA HF. pose proof (rok_nonstrict_lower admis A fuel (CP [] t) HA P HF) as H.
  apply rok_inv in H as (bl & E & (E1 & E2 & T & HN) & H). apply rok_inv in H as (b & E' & _ & HK).
  exists bl, b. split; [exact E|]. split; [exact E'|]. split; [exact HK|]. split; [|split; [|exact T]].
  - intros x Hx B. destruct (HN x Hx) as [_ N]. destruct (N B). auto.
  - assert (Q1 : partition_tree (cp_c (b_rc bl))) by (rewrite E1; exact P).
    assert (Q2 : partition_tree (cp_c (b_cc bl))) by (rewrite E2; exact P).
    pose proof (cover f g bl T Q1 Q2) as C. unfold bpairs at 2 in C. rewrite E1, E2 in C. exact C.
Qed.
Print Assumptions C11_nonstrict_lower.

Theorem C11_strict_lower {K : ofops} admis A (t : cluster K) f g fuel :
  partition_tree t -> evaluates admis A t t -> getdepth t + getdepth t < fuel ->
  exists bl b, build_strict_lower admis fuel (CP [] t) (CP [] t) = Ok bl /\
    build_strict admis fuel (CP [] t) (CP [] t) = Ok b /\
    map leaf_key (filter below (bleaves bl)) = map leaf_key (filter below (bleaves b)) /\
    (forall x, In x (bnodes bl) -> below x = false -> b_son x = [] /\ b_a x = true) /\
    Permutation (flat_map (bpairs f g) (bleaves bl)) (list_prod (indices f t) (indices g t)) /\ block_tree bl.
Proof.
  intros P HA HF. pose proof (rok_strict_lower admis A fuel (CP [] t) HA P HF) as H.
  apply rok_inv in H as (bl & E & (E1 & E2 & T & HN) & H). apply rok_inv in H as (b & E' & _ & HK).
  exists bl, b. split; [exact E|]. split; [exact E'|]. split; [exact HK|]. split; [|split; [|exact T]].
  - intros x Hx B. destruct (HN x Hx) as [_ N]. destruct (N B). auto.
  - assert (Q1 : partition_tree (cp_c (b_rc bl))) by (rewrite E1; exact P).
    assert (Q2 : partition_tree (cp_c (b_cc bl))) by (rewrite E2; exact P).
    pose proof (cover f g bl T Q1 Q2) as C. unfold bpairs at 2 in C. rewrite E1, E2 in C. exact C.
Qed.
Print Assumptions C11_strict_lower.

(** Example trees: four indices, two levels; and a root with three sons. *)
Definition ex_leaf (k : nat) : cluster QcO := Cl 1 k [] 0 (anew 0) (anew 0) (Some 1) 0.
Definition ex_inner (k : nat) : cluster QcO := Cl 2 k [ex_leaf k; ex_leaf (S k)] 0 (anew 0) (anew 0) (Some 3) 0.
Definition ex_tree : cluster QcO := Cl 4 0 [ex_inner 0; ex_inner 2] 0 (anew 0) (anew 0) (Some 7) 0.
Definition ex_flat (n : nat) : cluster QcO := Cl n 0 (map ex_leaf (seq 0 n)) 0 (anew 0) (anew 0) (Some (S n)) 0.
(** Clusters that are not neighbours. *)
Definition ex_A (r c : cluster QcO) : bool :=
  (c_off r + c_size r <? c_off c) || (c_off c + c_size c <? c_off r).

Lemma ex_tree_ok : partition_tree ex_tree /\ desc_ok ex_tree.
Proof.
  split; intros s Hs; cbn in Hs; repeat (destruct Hs as [<-|Hs]; [cbn; try (split; [lia|]); try reflexivity; intros N; try congruence; repeat split; lia|]); destruct Hs.
Qed.
Lemma ex_flat_ok n : 0 < n -> partition_tree (ex_flat n) /\ desc_ok (ex_flat n).
Proof.
  intros Hn. assert (N : forall s, In s (nodes (ex_flat n)) -> s = ex_flat n \/ exists k, s = ex_leaf k).
  { intros s Hs. apply in_nodes in Hs as [->|(c & Hc & Hs)]; [left; reflexivity|]. cbn [c_sons ex_flat] in Hc. apply in_map_iff in Hc as (k & <- & _).
    cbn in Hs. destruct Hs as [<-|[]]. right. exists k. reflexivity. }
  split.
  - intros s Hs. destruct (N s Hs) as [->|[k ->]]; cbn; (split; [lia|]); intros NN; [|congruence].
    assert (G : forall m o, tiles o m (map ex_leaf (seq o m))).
    { induction m as [|m IH]; intros o; cbn; [reflexivity|]. split; [reflexivity|]. split; [lia|].
      replace (o + 1) with (S o) by lia. rewrite Nat.sub_0_r. apply IH. }
    apply G.
  - intros s Hs. destruct (N s Hs) as [->|[k ->]]; [|reflexivity]. cbn. do 2 f_equal.
    assert (G : forall m o, length (flat_map nodes (map ex_leaf (seq o m))) = m) by (induction m; intros o; cbn; auto).
    symmetry. apply G.
Qed.

Example ex_build : exists b, build_strict (fun r c => Ok (ex_A r c)) 6 (CP [] ex_tree) (CP [] ex_tree) = Ok b /\
  length (bleaves b) = 16 /\ length (filter b_a (bleaves b)) = 6 /\ block_tree b.
Proof.
  destruct (C10_build_strict (fun r c => Ok (ex_A r c)) ex_A ex_tree ex_tree (fun i => i) (fun i => i) 6) as (b & E & _ & _ & _ & _ & T).
  - apply ex_tree_ok.
  - apply ex_tree_ok.
  - intros r c _ _. reflexivity.
  - vm_compute. lia.
  - exists b. split; [exact E|].
    assert (G : (match build_strict (fun r c => Ok (ex_A r c)) 6 (CP [] ex_tree) (CP [] ex_tree) with
      Ok b => (length (bleaves b), length (filter b_a (bleaves b))) | Err _ => (0, 0) end) = (16, 6)) by (vm_compute; reflexivity).
    rewrite E in G. injection G as -> ->. auto.
Qed.

(** Different depths of the trees: the non-strict construction stops earlier. *)
Example ex_build2 :
  (match build_nonstrict (fun r c => Ok (ex_A r c)) 6 (CP [] ex_tree) (CP [] (ex_flat 4)) with
   | Ok b => (length (bleaves b), length (bnodes b)) | Err _ => (0, 0) end) = (8, 9) /\
  (match build_strict (fun r c => Ok (ex_A r c)) 6 (CP [] ex_tree) (CP [] (ex_flat 4)) with
   | Ok b => (length (bleaves b), length (bnodes b)) | Err _ => (0, 0) end) = (14, 21).
Proof. split; vm_compute; reflexivity. Qed.

Example ex_lower : evaluates (fun r c => Ok (ex_A r c)) ex_A ex_tree ex_tree /\ getdepth ex_tree + getdepth ex_tree < 6 /\
  (match build_strict_lower (fun r c => Ok (ex_A r c)) 6 (CP [] ex_tree) (CP [] ex_tree) with
   | Ok b => (length (bleaves b), length (filter below (bleaves b))) | Err _ => (0, 0) end) = (13, 10).
Proof. split; [intros r c _ _; reflexivity|]. split; [vm_compute; lia|]. vm_compute. reflexivity. Qed.

(** Without the hypothesis that the trees coincide the lower constructions are
    not memory safe: if the column cluster has more sons than the row cluster,
    they read [rc->son[i]] past the end of the array. *)
Theorem C11_lower_refuted : exists (rt ct : cluster QcO) admis A,
  partition_tree rt /\ partition_tree ct /\ evaluates admis A rt ct /\
  forall fuel, 1 < fuel ->
    build_nonstrict_lower admis fuel (CP [] rt) (CP [] ct) = Err EBounds /\
    build_strict_lower admis fuel (CP [] rt) (CP [] ct) = Err EBounds.
Proof.
  exists (ex_flat 2), (ex_flat 3), (fun _ _ => Ok false), (fun _ _ => false).
  split; [apply ex_flat_ok; lia|]. split; [apply ex_flat_ok; lia|]. split; [intros r c _ _; reflexivity|].
  intros [|[|fuel]] H; try lia. split; reflexivity.
Qed.
Print Assumptions C11_lower_refuted.

(** ** C12: numbering, depth, sparsity constant *)

(** [desc] counts the blocks in every tree built by the constructions. *)
Theorem C12_desc {K : ofops} (b : block K) : block_tree b ->
  forall x, In x (bnodes b) -> b_desc x = Some (length (bnodes x)).
Proof. intros T x Hx. apply (T x Hx). Qed.
Print Assumptions C12_desc.

(** iterate_block calls [pre] and [post] in the order of the depth-first walk
    [bwalk].  A block [x] comes with the numbers of its row and column cluster
    in the depth-first numberings of the cluster trees that start at [rname]
    and [cname] -- those that iterate_cluster passes for these clusters. *)
Theorem C12_iterate_block {K : ofops} {S : Type} (pre post : bcb K S) (rt ct : cluster K) (b : block K)
  bname rname cname (s : S) :
  block_tree b -> b_rc b = CP [] rt -> b_cc b = CP [] ct -> desc_ok rt -> desc_ok ct ->
  iterate_block (Some pre) (Some post) b bname rname cname s =
  rfold (fun v s => match v with
    | BEnter n x => pre x n (rname + cpnum rt (b_rc x)) (cname + cpnum ct (b_cc x)) 0 s
    | BLeave n x => post x n (rname + cpnum rt (b_rc x)) (cname + cpnum ct (b_cc x)) 0 s end) (bwalk b bname) s /\
  (forall x, In x (bnodes b) ->
     In (Enter (rname + cpnum rt (b_rc x)) (cp_c (b_rc x))) (walk rt rname) /\
     In (Enter (cname + cpnum ct (b_cc x)) (cp_c (b_cc x))) (walk ct cname)).
Proof.
  intros T Er Ec Dr Dc. assert (Pr : points_into rt (b_rc b)) by (rewrite Er; reflexivity). assert (Pc : points_into ct (b_cc b)) by (rewrite Ec; reflexivity).
  split.
  - pose proof (iterate_bwalk rt ct rname cname Dr Dc (Some pre) (Some post) b T Pr Pc bname s) as W.
    rewrite Er, Ec in W. change (cpnum rt (CP [] rt)) with 0 in W. change (cpnum ct (CP [] ct)) with 0 in W. rewrite !Nat.add_0_r in W.
    rewrite W. clear. revert s. induction (bwalk b bname) as [|v l IH]; intros s; cbn [rfold]; [reflexivity|].
    destruct v; cbn [on_bvisit bcall]; [destruct (pre _ _ _ _ _ _)|destruct (post _ _ _ _ _ _)]; cbn [rbind]; auto.
  - intros x Hx. destruct (bnodes_points rt ct b T Pr Pc x Hx) as [P1 P2]. split; apply cnum_walk; assumption.
Qed.
Print Assumptions C12_iterate_block.

(** Different clusters of a tree have different numbers, so the numbers can be
    used as array indices. *)
Theorem C12_cluster_numbers {K : ofops} (t : cluster K) p q : points_into t p -> points_into t q ->
  cpnum t p < length (nodes t) /\ (cpnum t p = cpnum t q <-> cp_path p = cp_path q).
Proof.
  intros P Q. split.
  - pose proof (cnum_lt _ _ _ P). pose proof (nodes_len_pos (cp_c p)). unfold cpnum. lia.
  - rewrite <- cp_eqb_eq, <- (cpnum_inj t p q P Q). symmetry. apply Nat.eqb_eq.
Qed.
Print Assumptions C12_cluster_numbers.

(** The walk enters and leaves every block exactly once, the numbers are
    consecutive, and all visits of the blocks below [x] lie between the two
    visits of [x]. *)
Theorem C12_walk {K : ofops} (b : block K) n : block_tree b ->
  bentered (bwalk b n) = combine (seq n (length (bnodes b))) (bnodes b) /\
  Permutation (bleft_at (bwalk b n)) (bentered (bwalk b n)) /\
  (forall i x, nth_error (bnodes b) i = Some x -> exists l1 l2 l3,
     bwalk b n = l1 ++ BEnter (n + i) x :: l2 ++ BLeave (n + i) x :: l3 /\
     bentered l2 = combine (seq (n + i + 1) (length (bnodes x) - 1)) (tl (bnodes x))).
Proof.
  intros T. split; [apply bentered_walk; exact T|]. split; [apply bleft_walk; exact T|].
  intros i x H. destruct (bwalk_nested b T n i x H) as (l1 & l2 & E).
  assert (Tx : block_tree x) by (intros y Hy; apply T; eapply bnodes_trans; [eapply nth_error_In; exact H|exact Hy]).
  destruct (block_sons x Tx) as (l & El & _). rewrite (bwalk_eq x l _ El) in E. exists l1, (bwalks l (n + i + 1)), l2. split.
  - rewrite E. cbn [app]. rewrite <- app_assoc. reflexivity.
  - pose proof (bentered_walk x Tx (n + i)) as W. rewrite (bwalk_eq x l _ El) in W.
    change (bentered (BEnter ?m x :: ?l)) with ((m, x) :: bentered l) in W. rewrite bentered_app in W.
    change (bentered [BLeave (n + i) x]) with (@nil (nat * block K)) in W. rewrite app_nil_r in W.
    rewrite bnodes_eq in W |- *. cbn [length seq combine tl] in W |- *. injection W as W.
    rewrite Nat.sub_succ, Nat.sub_0_r, Nat.add_1_r, <- Nat.add_1_r, W, Nat.add_1_r. reflexivity.
Qed.
Print Assumptions C12_walk.

(** enumerate_block lists the blocks, enumerate_level_block their levels (the
    root has level 1), in the order of the numbers. *)
Theorem C12_enumerate {K : ofops} (b : block K) : block_tree b ->
  exists bn bl, enumerate_block b = Ok bn /\ enumerate_level_block b = Ok bl /\
    length bn = length (bnodes b) /\ length bl = length (bnodes b) /\
    (forall i x, In (BEnter i x) (bwalk b 0) -> nth_error bn i = Some (Some x)) /\
    (forall i, i < length (bnodes b) -> nth_error bl i = Some (Some (S (nth i (blevels b) 0)))).
Proof.
  intros T. exists (map Some (bnodes b)), (map Some (map S (blevels b))). split; [apply enumerate_block_ok; exact T|].
  split; [apply enumerate_level_ok; exact T|]. rewrite !map_length. split; [reflexivity|]. split; [apply blevels_length|]. split.
  - intros i x H. assert (I : In (i, x) (bentered (bwalk b 0))) by (apply in_flat_map; eexists; split; [exact H|left; reflexivity]).
    rewrite bentered_walk in I by exact T. rewrite nth_error_map.
    assert (G : forall (l : list (block K)) n, In (i, x) (combine (seq n (length l)) l) -> n <= i /\ nth_error l (i - n) = Some x).
    { induction l as [|y l IH]; intros n Hi; [destruct Hi|]. destruct Hi as [Hi|Hi].
      - injection Hi as -> ->. rewrite Nat.sub_diag. auto.
      - apply IH in Hi as [L E]. split; [lia|]. replace (i - n) with (S (i - S n)) by lia. exact E. }
    apply G in I as [_ I]. rewrite Nat.sub_0_r in I. rewrite I. reflexivity.
  - intros i Hi. rewrite map_map, nth_error_map, (nth_error_nth' _ 0) by (rewrite blevels_length; exact Hi). reflexivity.
Qed.
Print Assumptions C12_enumerate.

(** getdepth_block is the largest level. *)
Theorem C12_depth {K : ofops} (b : block K) : block_tree b ->
  exists d, getdepth_block b = Ok d /\ In d (blevels b) /\ forall l, In l (blevels b) -> l <= d.
Proof. apply getdepth_block_ok. Qed.
Print Assumptions C12_depth.

(** compute_csp_block is the largest number of blocks with the same row cluster
    or the same column cluster. *)
Theorem C12_csp {K : ofops} (rt ct : cluster K) (b : block K) :
  block_tree b -> b_rc b = CP [] rt -> b_cc b = CP [] ct -> desc_ok rt -> desc_ok ct ->
  exists m, compute_csp_block b = Ok m /\
    (forall x, In x (bnodes b) -> row_count b x <= m /\ col_count b x <= m) /\
    (exists x, In x (bnodes b) /\ (m = row_count b x \/ m = col_count b x)).
Proof. apply compute_csp_ok. Qed.
Print Assumptions C12_csp.

Example ex_block_numbers :
  exists b, build_strict (fun r c => Ok (ex_A r c)) 6 (CP [] ex_tree) (CP [] ex_tree) = Ok b /\
    block_tree b /\ b_rc b = CP [] ex_tree /\ b_cc b = CP [] ex_tree /\ desc_ok ex_tree /\
    getdepth_block b = Ok 2 /\ compute_csp_block b = Ok 4 /\ b_desc b = Some 21.
Proof.
  destruct (C10_build_strict (fun r c => Ok (ex_A r c)) ex_A ex_tree ex_tree (fun i => i) (fun i => i) 6) as (b & E & _ & _ & E1 & E2 & T).
  - apply ex_tree_ok.
  - apply ex_tree_ok.
  - intros r c _ _. reflexivity.
  - vm_compute. lia.
  - exists b. repeat (split; [assumption|]). split; [apply ex_tree_ok|].
    assert (G : (match build_strict (fun r c => Ok (ex_A r c)) 6 (CP [] ex_tree) (CP [] ex_tree) with
      Ok b => (getdepth_block b, compute_csp_block b, b_desc b) | Err _ => (Ok 0, Ok 0, None) end) = (Ok 2, Ok 4, Some 21)) by (vm_compute; reflexivity).
    rewrite E in G. injection G as -> -> ->. auto.
Qed.
