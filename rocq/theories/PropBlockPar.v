(** * Property C13: traversing block trees by rows and by columns *)
From Coq Require Import Arith Lia List Bool Permutation.
From Verif Require Import Fld Ord Inst OrdInst Prog Arr Loop Cluster ClusterSpec ClusterP ClusterP4 ClusterP5 Par ParP Block BlockSpec
  BlockP BlockP2 BlockP3 BlockP4 BlockP5 BlockP6 BlockP7 BlockP8 PropBlock.
Import ListNotations.

(** All blocks of [b], each with its number in the depth first order that starts
    with [n], and with the numbers of its clusters in trees numbered from [r]
    and [c]. *)
Definition all_numbered {K : ofops} (rt ct : cluster K) (r c : nat) (b : block K) (n : nat) : list (block K * nat * nat * nat) :=
  map (fun '(k, x) => (x, k, r + cpnum rt (b_rc x), c + cpnum ct (b_cc x))) (combine (seq n (length (bnodes b))) (bnodes b)).

(** C13.  For every block tree over two numbered cluster trees, and every
    parallelization depth, the traversal by rows succeeds and calls [pre]
    exactly once and [post] exactly once for each block, with the right numbers
    ([all_numbered] has no duplicates since the numbers differ).  Calls from
    different iterations of a parallel loop belong to row clusters without
    common indices. *)
Theorem C13_byrow {K : ofops} (rt ct : cluster K) r c (b : block K) n pardepth :
  desc_ok rt -> desc_ok ct -> partition_tree rt ->
  block_tree b -> points_into rt (b_rc b) -> points_into ct (b_cc b) ->
  exists t, iterate_byrow_block b n (r + cpnum rt (b_rc b)) (c + cpnum ct (b_cc b)) pardepth = Ok t /\
    Permutation (bpres t) (all_numbered rt ct r c b n) /\ Permutation (bposts t) (all_numbered rt ct r c b n) /\
    par_calls (fun u v => apart_cl (cp_c (b_rc (call_block u))) (cp_c (b_rc (call_block v)))) t.
Proof. intros D1 D2 PT T P1 P2. apply iterate_byrow_ok; assumption. Qed.
Print Assumptions C13_byrow.

Theorem C13_bycol {K : ofops} (rt ct : cluster K) r c (b : block K) n pardepth :
  desc_ok rt -> desc_ok ct -> partition_tree ct ->
  block_tree b -> points_into rt (b_rc b) -> points_into ct (b_cc b) ->
  exists t, iterate_bycol_block b n (r + cpnum rt (b_rc b)) (c + cpnum ct (b_cc b)) pardepth = Ok t /\
    Permutation (bpres t) (all_numbered rt ct r c b n) /\ Permutation (bposts t) (all_numbered rt ct r c b n) /\
    par_calls (fun u v => apart_cl (cp_c (b_cc (call_block u))) (cp_c (b_cc (call_block v)))) t.
Proof. intros D1 D2 PT T P1 P2. apply iterate_bycol_ok; assumption. Qed.
Print Assumptions C13_bycol.

(** ** All schedules *)
(** The thread that performs a traversal whose calls run the program [f]. *)
Fixpoint pthr {A F : Type} (f : A -> prog F unit) (t : ptree A) : thr F :=
  match t with
  | Pcalls l => fold_right (fun x u => Tseq (Tp (f x)) u) (Tp (Ret tt)) l
  | Pseq t1 t2 => Tseq (pthr f t1) (pthr f t2)
  | Ppar l => Tpar (map (pthr f) l)
  end.

Section Schedules.
Context {A F : Type} (f : A -> prog F unit) (R W : A -> addr -> Prop) (P : A -> A -> Prop).
Hypothesis HW : forall x, within (R x) (W x) (f x).
Hypothesis HP : forall x y, P x y -> apart (R x) (W x) (R y) (W y).
Implicit Types (t : ptree A) (m : mem F).

Definition from (l : list A) (la : list access) : Prop := forall a, In a la -> exists x, In x l /\ inside (R x) (W x) [a].

Lemma conflict_from l1 l2 la1 la2 : (forall x y, In x l1 -> In y l2 -> P x y) -> from l1 la1 -> from l2 la2 -> conflict_free la1 la2.
Proof.
  intros H F1 F2 a. split; intros Ha Ht.
  - destruct (F1 _ Ha) as (x & Hx & Ix). pose proof (proj2 (Ix a) (or_introl eq_refl)) as Wx.
    destruct Ht as [Ht|Ht]; destruct (F2 _ Ht) as (y & Hy & Iy); destruct (proj1 (HP _ _ (H _ _ Hx Hy)) a Wx) as [N1 N2].
    + destruct (proj1 (Iy a) (or_introl eq_refl)); contradiction.
    + pose proof (proj2 (Iy a) (or_introl eq_refl)). contradiction.
  - destruct (F2 _ Ha) as (y & Hy & Iy). pose proof (proj2 (Iy a) (or_introl eq_refl)) as Wy.
    destruct Ht as [Ht|Ht]; destruct (F1 _ Ht) as (x & Hx & Ix); destruct (proj2 (HP _ _ (H _ _ Hx Hy)) a Wy) as [N1 N2].
    + destruct (proj1 (Ix a) (or_introl eq_refl)); contradiction.
    + pose proof (proj2 (Ix a) (or_introl eq_refl)). contradiction.
Qed.

Lemma pthr_race_free t : par_calls P t -> forall m m', run (seqprog (pthr f t)) m = Ok (tt, m') ->
  exists la, race_free m (pthr f t) la m' /\ from (pcalls t) la.
Proof.
  induction t as [l|t1 t2 IH1 IH2|l IH] using ptree_rect'; intros HC m m' E.
  - clear HC. revert m E. induction l as [|x l IHl]; intros m E.
    + cbn in E. injection E as <-. exists []. split; [constructor; constructor|intros a []].
    + cbn [pthr fold_right seqprog] in E. rewrite run_bind in E. destruct (run (f x) m) as [[[] m1]|e] eqn:E1; [|discriminate].
      destruct (within_trace _ _ _ (HW x) _ _ E1) as (la & Tr & I1). destruct (IHl m1 E) as (lb & Rb & Fb).
      exists (la ++ lb). split; [cbn [pthr fold_right]; econstructor; [constructor; exact Tr|exact Rb]|].
      intros a Ha. apply in_app_or in Ha as [Ha|Ha]; [|destruct (Fb a Ha) as (y & Hy & ?); exists y; split; [right; exact Hy|assumption]].
      exists x. split; [left; reflexivity|]. intros z. destruct (I1 z) as [J1 J2]. split; (intros [Ez|[]]; subst a; auto).
  - destruct HC as [C1 C2]. cbn [pthr seqprog] in E. rewrite run_bind in E. destruct (run (seqprog (pthr f t1)) m) as [[[] m1]|e] eqn:E1; [|discriminate].
    destruct (IH1 C1 _ _ E1) as (la & Ra & Fa). destruct (IH2 C2 _ _ E) as (lb & Rb & Fb). exists (la ++ lb). split; [cbn; econstructor; eassumption|].
    intros a Ha. cbn [pcalls]. apply in_app_or in Ha as [Ha|Ha]; [destruct (Fa a Ha) as (y & Hy & ?)|destruct (Fb a Ha) as (y & Hy & ?)]; exists y; (split; [apply in_or_app; auto|assumption]).
  - destruct HC as [C1 C2]. cbn [pthr] in *.
    assert (G : exists ls, race_frees m (map (pthr f) l) ls m' /\ Forall2 (fun t la => from (pcalls t) la) l ls).
    { clear C1. revert m E. induction IH as [|t l Ht Hl IHl]; intros m E.
      - cbn in E. injection E as <-. exists []. split; constructor.
      - cbn [map seqprog] in E. rewrite run_bind in E. destruct (run (seqprog (pthr f t)) m) as [[[] m1]|e] eqn:E1; [|discriminate].
        destruct C2 as [C2 C3]. destruct (Ht C2 _ _ E1) as (la & Ra & Fa). destruct (IHl C3 m1 E) as (ls & Rs & Fs).
        exists (la :: ls). split; [econstructor; eassumption|constructor; assumption]. }
    destruct G as (ls & Rs & Fs). exists (concat ls). split.
    + constructor; [exact Rs|]. clear - C1 Fs HP. induction Fs as [|t la l ls H1 Fs IHf]; [constructor|]. inversion C1 as [|? ? D1 D2]; subst. constructor; [|apply IHf; exact D2].
      clear - D1 Fs H1 HP. induction Fs as [|t' la' l ls H2 Fs IHf]; constructor.
      * inversion D1; subst. eapply conflict_from; eassumption.
      * apply IHf. inversion D1; assumption.
    + clear - Fs. intros a Ha. induction Fs as [|t la l ls H1 Fs IHf]; cbn in Ha; [destruct Ha|]. apply in_app_or in Ha as [Ha|Ha]; cbn.
      * destruct (H1 a Ha) as (x & Hx & ?). exists x. split; [apply in_or_app; auto|assumption].
      * destruct (IHf Ha) as (x & Hx & ?). exists x. split; [apply in_or_app; auto|assumption].
Qed.
End Schedules.

(** If the callbacks for blocks with disjoint row clusters use memory cells that
    do not interfere (for instance because they only write data of their row
    cluster and of their own block), then every schedule gives the result of
    the sequential one. *)
Theorem C13_byrow_parallel {K : ofops} {F : Type} (rt ct : cluster K) r c (b : block K) n pardepth
  (f : blcall K -> prog F unit) (R W : blcall K -> addr -> Prop) :
  desc_ok rt -> desc_ok ct -> partition_tree rt ->
  block_tree b -> points_into rt (b_rc b) -> points_into ct (b_cc b) ->
  (forall x, within (R x) (W x) (f x)) ->
  (forall x y, apart_cl (cp_c (b_rc (call_block x))) (cp_c (b_rc (call_block y))) -> apart (R x) (W x) (R y) (W y)) ->
  exists t, iterate_byrow_block b n (r + cpnum rt (b_rc b)) (c + cpnum ct (b_cc b)) pardepth = Ok t /\
    forall m m', run (seqprog (pthr f t)) m = Ok (tt, m') -> deterministic m (pthr f t) m'.
Proof.
  intros D1 D2 PT T P1 P2 HW HA. destruct (C13_byrow rt ct r c b n pardepth D1 D2 PT T P1 P2) as (t & E & _ & _ & HC).
  exists t. split; [exact E|]. intros m m' E'. destruct (pthr_race_free f R W _ HW HA t HC m m' E') as (la & Rf & _). eapply rf_det. exact Rf.
Qed.
Print Assumptions C13_byrow_parallel.

Theorem C13_bycol_parallel {K : ofops} {F : Type} (rt ct : cluster K) r c (b : block K) n pardepth
  (f : blcall K -> prog F unit) (R W : blcall K -> addr -> Prop) :
  desc_ok rt -> desc_ok ct -> partition_tree ct ->
  block_tree b -> points_into rt (b_rc b) -> points_into ct (b_cc b) ->
  (forall x, within (R x) (W x) (f x)) ->
  (forall x y, apart_cl (cp_c (b_cc (call_block x))) (cp_c (b_cc (call_block y))) -> apart (R x) (W x) (R y) (W y)) ->
  exists t, iterate_bycol_block b n (r + cpnum rt (b_rc b)) (c + cpnum ct (b_cc b)) pardepth = Ok t /\
    forall m m', run (seqprog (pthr f t)) m = Ok (tt, m') -> deterministic m (pthr f t) m'.
Proof.
  intros D1 D2 PT T P1 P2 HW HA. destruct (C13_bycol rt ct r c b n pardepth D1 D2 PT T P1 P2) as (t & E & _ & _ & HC).
  exists t. split; [exact E|]. intros m m' E'. destruct (pthr_race_free f R W _ HW HA t HC m m' E') as (la & Rf & _). eapply rf_det. exact Rf.
Qed.
Print Assumptions C13_bycol_parallel.

(** Example: each block increases a counter of its row cluster, with threads on
    two levels. *)
Section Example.
  Let cl (k : blcall QcO) := cp_c (b_rc (call_block k)).
  Let count (k : blcall QcO) : prog nat unit :=
    if 0 <? c_size (cl k) then Ld (0, c_off (cl k)) (fun v => St (0, c_off (cl k)) (v + 1) (Ret tt)) else Ret tt.
  Let cells (k : blcall QcO) (a : addr) : Prop := 0 < c_size (cl k) /\ a = (0, c_off (cl k)).
  Let m0 : mem nat := Mem (fun a => if (fst a =? 0) && (snd a <? 4) then Val 0 else Free) 1.
  Let result : res (nat * bool * list (cell nat)) :=
    let* b := build_strict (fun r c => Ok (ex_A r c)) 6 (CP [] ex_tree) (CP [] ex_tree) in
    let* t := iterate_byrow_block b 0 0 0 2 in
    let* x := run (seqprog (pthr count t)) m0 in
    Ok (length (bpres t), match t with Pseq _ (Pseq (Ppar l) _) => 2 =? length l | _ => false end, map (fun i => get (snd x) (0, i)) (seq 0 4)).

  Example ex_byrow_value : result = Ok (21, true, [Val 14; Val 8; Val 12; Val 8]).
  Proof. vm_compute. reflexivity. Qed.

  Example ex_byrow : exists b t m', build_strict (fun r c => Ok (ex_A r c)) 6 (CP [] ex_tree) (CP [] ex_tree) = Ok b /\
    iterate_byrow_block b 0 0 0 2 = Ok t /\ deterministic m0 (pthr count t) m'.
  Proof.
    destruct (C10_build_strict (fun r c => Ok (ex_A r c)) ex_A ex_tree ex_tree (fun i => i) (fun i => i) 6) as (b & E & _ & _ & E1 & E2 & T).
    - apply ex_tree_ok.
    - apply ex_tree_ok.
    - intros r c _ _. reflexivity.
    - vm_compute. lia.
    - assert (Q1 : points_into ex_tree (b_rc b)) by (rewrite E1; reflexivity). assert (Q2 : points_into ex_tree (b_cc b)) by (rewrite E2; reflexivity).
      destruct (C13_byrow_parallel ex_tree ex_tree 0 0 b 0 2 count (fun _ _ => False) cells) as (t & Et & H);
        [apply ex_tree_ok|apply ex_tree_ok|apply ex_tree_ok|exact T|exact Q1|exact Q2| | |].
      + intros k. unfold count, cells. destruct (Nat.ltb_spec 0 (c_size (cl k))); cbn; auto.
      + intros k1 k2 H. fold (cl k1) (cl k2) in H. unfold apart_cl in H. unfold cells. split; intros a [H1 ->]; (split; [tauto|]); intros [H2 Ea]; injection Ea; lia.
      + rewrite E1, E2 in Et. change (0 + cpnum ex_tree (CP [] ex_tree)) with 0 in Et.
        pose proof ex_byrow_value as V. unfold result in V. rewrite E in V. cbn [rbind] in V. rewrite Et in V. cbn [rbind] in V.
        destruct (run (seqprog (pthr count t)) m0) as [[[] m']|e] eqn:Er; [|discriminate]. exists b, t, m'. auto.
  Qed.
End Example.
