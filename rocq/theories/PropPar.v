(** * Properties of parallel traversals (C09) *)
From Coq Require Import Arith Lia List Bool.
From Verif Require Import Fld Ord OrdInst Prog Arr Cluster ClusterSpec ClusterP ClusterP4 Par ParP ClusterPar ClusterParP.
Import ListNotations.

(** C09.  [R n] and [W n] are the cells that the callbacks for cluster number
    [n] may load and store.  If the cells of two clusters whose subtrees are
    disjoint do not interfere, and the sequential traversal [iterate_cluster]
    succeeds in memory [m'], then every execution of [iterate_parallel_cluster],
    for every [pardepth] and every interleaving of loads and stores, has the
    same number of steps, never gets stuck and ends in [m']. *)
Theorem C09_iterate_parallel {K : ofops} {F : Type} (pre post : option (cluster K -> nat -> prog F unit))
  (R W : nat -> addr -> Prop) (t : cluster K) n pardepth (m m' : mem F) :
  desc_ok t ->
  (forall i c f, In (Enter i c) (walk t n) -> pre = Some f \/ post = Some f -> within (R i) (W i) (f c i)) ->
  (forall i c j d, In (Enter i c) (walk t n) -> In (Enter j d) (walk t n) -> i + length (nodes c) <= j ->
     apart (R i) (W i) (R j) (W j)) ->
  iterate_cluster (lift_cb pre) (lift_cb post) t n m = Ok m' ->
  exists th, iterate_parallel pre post t n pardepth = Ok th /\ deterministic m th m'.
Proof.
  intros D HW HA E. destruct (iterate_par pre post R W t D n pardepth m m') as (th & l & H1 & H2 & _); auto.
  - intros i c Hi. split; [destruct pre as [f|] eqn:Ef|destruct post as [f|] eqn:Ef]; cbn; trivial; eapply HW; eauto.
  - exists th. split; [exact H1|]. eapply rf_det. exact H2.
Qed.
Print Assumptions C09_iterate_parallel.

(** The general fact behind it, for any program with parallel loops: freedom
    from races in the sequential execution decides all interleavings. *)
Theorem C09_race_free {F : Type} (m : mem F) t l m' :
  race_free m t l m' ->
  run (seqprog t) m = Ok (tt, m') /\
  forall n m1 t1, steps n m t m1 t1 ->
    n <= length l /\ (tdone t1 -> n = length l /\ meq m1 m') /\ (tdone t1 \/ exists m2 t2, step m1 t1 m2 t2).
Proof. intros H. split; [apply (proj1 rf_run) with (l := l); exact H|]. intros. eapply interleave; eassumption. Qed.
Print Assumptions C09_race_free.

(** Example: every cluster counts the clusters of its subtree from the counts of
    its sons.  Cluster [n] owns cell [n] and reads the cells of its subtree. *)
Section Example.
  Let leaf (k : nat) : cluster QcO := Cl 1 k [] 0 (anew 0) (anew 0) (Some 1) 0.
  Let inner : cluster QcO := Cl 2 1 [leaf 1; leaf 2] 0 (anew 0) (anew 0) (Some 3) 0.
  Let root : cluster QcO := Cl 3 0 [leaf 0; inner] 0 (anew 0) (anew 0) (Some 5) 0.

  Fixpoint add_sons (l : list (cluster QcO)) (k s : nat) (out : nat) : prog nat unit :=
    match l with
    | [] => St (0, out) s (Ret tt)
    | c :: l' => Ld (0, k) (fun v => add_sons l' (k + length (nodes c)) (s + v) out)
    end.
  Let pre (c : cluster QcO) (n : nat) : prog nat unit := St (0, n) 1 (Ret tt).
  Let post (c : cluster QcO) (n : nat) : prog nat unit := add_sons (c_sons c) (n + 1) 1 n.
  Let R (n : nat) (a : addr) : Prop :=
    fst a = 0 /\ ((n = 0 /\ 0 < snd a < 5) \/ (n = 2 /\ 2 < snd a < 5)).
  Let W (n : nat) (a : addr) : Prop := a = (0, n).
  Let m0 : mem nat := Mem (fun a => if (fst a =? 0) && (snd a <? 5) then Undef else Free) 1.

  Let mget (m : mem nat) := map (fun i => get m (0, i)) (seq 0 5).

  Example ex_parallel : forall pardepth, exists th m',
    iterate_parallel (Some pre) (Some post) root 0 pardepth = Ok th /\ deterministic m0 th m' /\
    mget m' = [Val 5; Val 1; Val 3; Val 1; Val 1].
  Proof.
    intros pd.
    destruct (iterate_cluster (lift_cb (Some pre)) (lift_cb (Some post)) root 0 m0) as [m'|e] eqn:E.
    - destruct (C09_iterate_parallel (Some pre) (Some post) R W root 0 pd m0 m') as (th & H1 & H2); [| | |exact E|].
      + intros c Hc. cbn in Hc. repeat (destruct Hc as [<-|Hc]; [reflexivity|]). destruct Hc.
      + intros i c f Hi Hf. unfold R, W.
        assert (Hp : f = pre \/ f = post) by (destruct Hf as [Hf|Hf]; injection Hf as <-; auto). clear Hf.
        cbn in Hi. repeat (destruct Hi as [Hi|Hi]; [try discriminate; injection Hi as <- <-;
          destruct Hp as [-> | ->]; cbn; repeat (split || intros); auto; try lia; left; cbn; lia|]). destruct Hi.
      + assert (B : forall i c, In (Enter i c) (walk root 0) -> In (i, length (nodes c)) [(0, 5); (1, 1); (2, 3); (3, 1); (4, 1)]).
        { intros i c Hi. cbn in Hi. repeat (destruct Hi as [Hi|Hi]; [try discriminate; injection Hi as <- <-; cbn; tauto|]).
          destruct Hi. }
        intros i c j d Hi Hj L. apply B in Hi, Hj. destruct (nodes c) as [|c0 lc]; [cbn in Hi; intuition discriminate|].
        set (lci := length (c0 :: lc)) in *. clearbody lci. set (lcj := length (nodes d)) in *. clearbody lcj.
        assert (Q : (i = 1 /\ j = 2 \/ i = 1 /\ j = 3 \/ i = 1 /\ j = 4 \/ i = 3 /\ j = 4)).
        { cbn in Hi, Hj. repeat (destruct Hi as [Hi|Hi]); try contradiction; injection Hi as <- <-;
          repeat (destruct Hj as [Hj|Hj]); try contradiction; injection Hj as <- <-; lia. }
        unfold apart, R, W; split; intros a ->; cbn; (split; [lia|]); intros G; injection G; lia.
      + exists th, m'. split; [exact H1|]. split; [exact H2|].
        assert (G : (match iterate_cluster (lift_cb (Some pre)) (lift_cb (Some post)) root 0 m0 with
                     Ok m => mget m | Err _ => [] end) = [Val 5; Val 1; Val 3; Val 1; Val 1]) by (vm_compute; reflexivity).
        rewrite E in G. exact G.
    - exfalso. assert (G : (match iterate_cluster (lift_cb (Some pre)) (lift_cb (Some post)) root 0 m0 with
                     Ok m => true | Err _ => false end) = true) by (vm_compute; reflexivity).
      rewrite E in G. discriminate.
  Qed.
End Example.

(** Without the hypothesis on the cells the result depends on the schedule. *)
Example ex_race : let th := Tpar [Tp (St (0, 0) 1 (Ret tt)); Tp (St (0, 0) 2 (Ret tt))] in
  let m0 : mem nat := Mem (fun a => if (fst a =? 0) && (snd a =? 0) then Undef else Free) 1 in
  exists m1 m2 t1 t2, steps 2 m0 th m1 t1 /\ tdone t1 /\ steps 2 m0 th m2 t2 /\ tdone t2 /\ ~ meq m1 m2.
Proof.
  intros th m0. exists (upd (upd m0 (0,0) 1) (0,0) 2), (upd (upd m0 (0,0) 2) (0,0) 1),
    (Tpar [Tp (Ret tt); Tp (Ret tt)]), (Tpar [Tp (Ret tt); Tp (Ret tt)]). split; [|split; [cbn; auto|split; [|split; [cbn; auto|]]]].
  - apply steps_S with (m1 := upd m0 (0,0) 1) (t1 := Tpar [Tp (Ret tt); Tp (St (0, 0) 2 (Ret tt))]).
    + apply (step_par m0 _ [] _ (Tp (Ret tt)) [Tp (St (0, 0) 2 (Ret tt))]). constructor. cbn. discriminate.
    + eapply steps_S; [|constructor]. apply (step_par _ _ [Tp (Ret tt)] _ (Tp (Ret tt)) []). constructor. cbn. discriminate.
  - apply steps_S with (m1 := upd m0 (0,0) 2) (t1 := Tpar [Tp (St (0, 0) 1 (Ret tt)); Tp (Ret tt)]).
    + apply (step_par m0 _ [Tp (St (0, 0) 1 (Ret tt))] _ (Tp (Ret tt)) []). constructor. cbn. discriminate.
    + eapply steps_S; [|constructor]. apply (step_par _ _ [] _ (Tp (Ret tt)) [Tp (Ret tt)]). constructor. cbn. discriminate.
  - intros [_ E]. specialize (E (0,0)). cbn in E. discriminate.
Qed.
