(** * Proofs about the parallel traversal of cluster trees *)
From Coq Require Import Arith Lia List Bool.
From Verif Require Import Fld Ord Prog Arr Cluster ClusterSpec ClusterP ClusterP4 Par ParP ClusterPar.
Import ListNotations.

Section Par.
Context {K : ofops} {F : Type}.
Implicit Types t c : cluster K.
Variables pre post : option (cluster K -> nat -> prog F unit).
Variables R W : nat -> addr -> Prop.

Definition within_cb (f : option (cluster K -> nat -> prog F unit)) c n : Prop :=
  match f with Some f => within (R n) (W n) (f c n) | None => True end.

Lemma call_trace f c n m m' : within_cb f c n -> call (lift_cb f) c n m = Ok m' ->
  exists l, race_free m (tcall f c n) l m' /\ inside (R n) (W n) l.
Proof.
  unfold tcall. destruct f as [f|]; cbn; intros H E.
  - destruct (run (f c n) m) as [[[] m1]|e] eqn:G; cbn in E; [|discriminate]. injection E as <-.
    destruct (within_trace _ _ _ H _ _ G) as (l & P & I). exists l. split; [constructor; exact P|exact I].
  - injection E as <-. exists []. split; [constructor; constructor|apply inside_nil].
Qed.

Lemma in_walks (l : list (cluster K)) : forall n v, In v (walks l n) ->
  exists l1 s l2, l = l1 ++ s :: l2 /\ In v (walk s (n + length (flat_map nodes l1))).
Proof.
  induction l as [|s l IH]; cbn; intros n v H; [contradiction|]. apply in_app_iff in H as [H|H].
  - exists [], s, l. split; [reflexivity|]. cbn. rewrite Nat.add_0_r. exact H.
  - destruct (IH _ _ H) as (l1 & s1 & l2 & -> & H1). exists (s :: l1), s1, l2. split; [reflexivity|].
    cbn [flat_map]. rewrite app_length, Nat.add_assoc. exact H1.
Qed.

Lemma walks_in (l1 : list (cluster K)) s l2 n v : In v (walk s (n + length (flat_map nodes l1))) -> In v (walks (l1 ++ s :: l2) n).
Proof.
  revert n. induction l1 as [|s1 l1 IH]; cbn; intros n H.
  - rewrite Nat.add_0_r in H. apply in_app_iff. left. exact H.
  - apply in_app_iff. right. apply IH. rewrite app_length, Nat.add_assoc in H. exact H.
Qed.

Lemma enter_range t : forall n i c, In (Enter i c) (walk t n) -> n <= i /\ i + length (nodes c) <= n + length (nodes t).
Proof.
  induction t as [size off sons dim b1 b2 ds typ IH] using cluster_rect'. intros n i c H.
  set (t := Cl size off sons dim b1 b2 ds typ) in *. rewrite walk_eq in H.
  destruct H as [H|H]; [injection H as -> ->; lia|]. apply in_app_iff in H as [H|[H|[]]]; [|discriminate].
  rewrite (nodes_eq t). change (c_sons t) with sons in *. clearbody t. cbn [length].
  apply in_walks in H as (l1 & s & l2 & E & H). rewrite Forall_forall in IH.
  apply IH in H; [|rewrite E; apply in_elt]. rewrite E, flat_map_app, app_length. cbn [flat_map]. rewrite app_length. lia.
Qed.

(** The footprint of a set of clusters given by an interval of numbers. *)
Definition Ru (a b : nat) (x : addr) : Prop := exists i, a <= i < b /\ R i x.
Definition Wu (a b : nat) (x : addr) : Prop := exists i, a <= i < b /\ W i x.

Lemma tloop_rf (m : mem F) ts ls m' (par : bool) : race_frees m ts ls m' -> (par = true -> ForallOrdPairs conflict_free ls) ->
  exists l, race_free m (tloop par ts) l m' /\ forall x, In x l -> exists l', In l' ls /\ In x l'.
Proof.
  intros H C. assert (E : forall x, In x (concat ls) -> exists l', In l' ls /\ In x l') by
    (intros x Hx; apply in_concat in Hx; exact Hx).
  destruct par; cbn [tloop].
  - exists (concat ls). split; [constructor; auto|exact E].
  - exists (concat ls ++ []). split; [apply rfs_seq; exact H|]. rewrite app_nil_r. exact E.
Qed.

Lemma iterate_par t : desc_ok t -> forall n pd m m',
  (forall i c, In (Enter i c) (walk t n) -> within_cb pre c i /\ within_cb post c i) ->
  (forall i c j d, In (Enter i c) (walk t n) -> In (Enter j d) (walk t n) -> i + length (nodes c) <= j ->
    apart (R i) (W i) (R j) (W j)) ->
  iterate_cluster (lift_cb pre) (lift_cb post) t n m = Ok m' ->
  exists th l, iterate_parallel pre post t n pd = Ok th /\ race_free m th l m' /\
    forall x, In x l -> exists i c, In (Enter i c) (walk t n) /\ inside (R i) (W i) [x].
Proof.
  induction t as [size off sons dim b1 b2 ds typ IH] using cluster_rect'. intros D n pd m m' HW HA E.
  set (t := Cl size off sons dim b1 b2 ds typ) in *.
  assert (D' : forall c, In c sons -> desc_ok c) by (intros c Hc; eapply desc_sub; [exact D|exact Hc]).
  assert (Ht : In (Enter n t) (walk t n)) by (rewrite walk_eq; left; reflexivity).
  destruct (HW _ _ Ht) as [W1 W2].
  assert (Hsub : forall v, In v (walks sons (n + 1)) -> In v (walk t n)).
  { intros v Hv. rewrite walk_eq. right. apply in_app_iff. left. exact Hv. }
  unfold t at 1 in E. cbn [iterate_cluster] in E. fold t in E.
  destruct (call (lift_cb pre) t n m) as [m1|e] eqn:E1; cbn [rbind] in E; [|discriminate].
  destruct (call_trace _ _ _ _ _ W1 E1) as (l1 & R1 & I1).
  match type of E with context [rfold ?b ?l ?s] => destruct (rfold b l s) as [[tn m2]|e] eqn:E2; [|discriminate] end.
  cbn [rbind] in E. unfold get_desc in E. rewrite (D t (nodes_refl t)) in E. cbn [rbind] in E.
  destruct (tn =? _); cbn [rassert rbind] in E; [|discriminate].
  destruct (call_trace _ _ _ _ _ W2 E) as (l3 & R3 & I3).
  pose (go := fix go (l : list (cluster K)) names := match l, names with
          | [], _ => Ok []
          | s :: l', n :: names' =>
            let* th := iterate_parallel pre post s n (if 0 <? pd then pd - 1 else 0) in
            let* ths := go l' names' in
            Ok (th :: ths)
          | _ :: _, [] => Err EBounds
          end).
  assert (Names : forall (l : list (cluster K)) acc k, (forall c, In c l -> desc_ok c) ->
    exists names, rfold (fun s '(tname1, tname2) =>
          let* d := get_desc s in Ok (tname1 ++ [tname2], tname2 + d)) l (acc, k) =
      Ok (acc ++ names, k + length (flat_map nodes l)) /\
      forall m0 x, (forall i c, In (Enter i c) (walks l k) -> within_cb pre c i /\ within_cb post c i) ->
        (forall i c j d, In (Enter i c) (walks l k) -> In (Enter j d) (walks l k) -> i + length (nodes c) <= j ->
           apart (R i) (W i) (R j) (W j)) ->
        incl l sons ->
        rfold (fun t1 '(tname1, s) =>
          let* s := iterate_cluster (lift_cb pre) (lift_cb post) t1 tname1 s in
          let* d := get_desc t1 in Ok (tname1 + d, s)) l (k, m0) = Ok x ->
        exists ths ls, go l names = Ok ths /\ race_frees m0 ths ls (snd x) /\ ForallOrdPairs conflict_free ls /\
          forall l' x, In l' ls -> In x l' -> exists i c, In (Enter i c) (walks l k) /\ inside (R i) (W i) [x]).
  { clear - IH. intros l; induction l as [|c l IHl]; intros acc k Dl.
    - exists []. cbn. rewrite app_nil_r, Nat.add_0_r. split; [reflexivity|]. intros m0 x _ _ _ H. injection H as <-.
      exists [], []. repeat split; try constructor. intros ? ? [].
    - destruct (IHl (acc ++ [k]) (k + length (nodes c)) (fun c H => Dl c (or_intror H))) as (names & N1 & N2).
      exists (k :: names). split.
      + cbn [rfold]. unfold get_desc at 1. rewrite (Dl c (or_introl eq_refl) c (nodes_refl c)). cbn [rbind].
        rewrite N1. cbn [flat_map]. rewrite app_length. do 2 f_equal; [rewrite <- app_assoc; reflexivity|lia].
      + intros m0 x HW HA Inc H. cbn [rfold] in H.
        destruct (iterate_cluster _ _ c k m0) as [m1|e] eqn:E1; cbn [rbind] in H; [|discriminate].
        unfold get_desc at 1 in H. rewrite (Dl c (or_introl eq_refl) c (nodes_refl c)) in H. cbn [rbind] in H.
        assert (S1 : forall v, In v (walk c k) -> In v (walks (c :: l) k)) by
          (intros v Hv; cbn [walks]; apply in_app_iff; left; exact Hv).
        assert (S2 : forall v, In v (walks l (k + length (nodes c))) -> In v (walks (c :: l) k)) by
          (intros v Hv; cbn [walks]; apply in_app_iff; right; exact Hv).
        rewrite Forall_forall in IH.
        destruct (IH c (Inc c (or_introl eq_refl)) (Dl c (or_introl eq_refl)) k (if 0 <? pd then pd - 1 else 0) m0 m1)
          as (th & la & G1 & G2 & G3); eauto.
        destruct (N2 m1 x) as (ths & ls & L1 & L2 & L3 & L4); eauto.
        { intros s Hs. apply Inc. right. exact Hs. }
        exists (th :: ths), (la :: ls). split.
        { cbn [go]. rewrite G1. cbn [rbind]. fold go. rewrite L1. reflexivity. }
        split; [econstructor; eassumption|]. split.
        * constructor; [|exact L3]. apply Forall_forall. intros lb Hlb a.
          assert (C : forall x y, In x la -> In y lb -> exists i j, apart (R i) (W i) (R j) (W j) /\
             inside (R i) (W i) [x] /\ inside (R j) (W j) [y]).
          { intros x0 y Hx Hy. destruct (G3 _ Hx) as (i & ci & Hi & Ii). destruct (L4 _ _ Hlb Hy) as (j & cj & Hj & Ij).
            exists i, j. split; [|split; assumption]. apply (HA i ci j cj); [apply S1; exact Hi|apply S2; exact Hj|].
            apply enter_range in Hi. apply in_walks in Hj as (l4 & s & l5 & _ & Hj). apply enter_range in Hj. lia. }
          split; intros Ha [T|T].
          -- destruct (C _ _ Ha T) as (i & j & [A1 A2] & Ii & Ij).
             destruct (A1 a); [apply (proj2 (Ii a)); left; reflexivity|]. destruct (proj1 (Ij a)); [left; reflexivity| |]; auto.
          -- destruct (C _ _ Ha T) as (i & j & [A1 A2] & Ii & Ij).
             destruct (A1 a); [apply (proj2 (Ii a)); left; reflexivity|]. apply H1. apply (proj2 (Ij a)). left; reflexivity.
          -- destruct (C _ _ T Ha) as (i & j & [A1 A2] & Ii & Ij).
             destruct (A2 a); [apply (proj2 (Ij a)); left; reflexivity|]. destruct (proj1 (Ii a)); [left; reflexivity| |]; auto.
          -- destruct (C _ _ T Ha) as (i & j & [A1 A2] & Ii & Ij).
             destruct (A2 a); [apply (proj2 (Ij a)); left; reflexivity|]. apply H1. apply (proj2 (Ii a)). left; reflexivity.
        * intros l' y [<-|Hl'] Hy.
          -- destruct (G3 _ Hy) as (i & ci & Hi & Ii). exists i, ci. auto.
          -- destruct (L4 _ _ Hl' Hy) as (i & ci & Hi & Ii). exists i, ci. auto. }
  destruct (Names sons [] (n + 1) D') as (names & N1 & N2).
  destruct (N2 m1 (tn, m2)) as (ths & ls & L1 & L2 & L3 & L4).
  { intros i c Hc. apply HW. auto. }
  { intros i c j d Hi Hj. apply (HA i c j d); auto. }
  { intros c Hc. exact Hc. }
  { exact E2. }
  cbn [snd] in L2.
  assert (Fin : forall th lb, race_free m1 th lb m2 -> (forall x, In x lb -> exists l', In l' ls /\ In x l') ->
    exists l, race_free m (Tseq (tcall pre t n) (Tseq th (tcall post t n))) l m' /\
      forall x, In x l -> exists i c, In (Enter i c) (walk t n) /\ inside (R i) (W i) [x]).
  { intros th lb Rb Ib. exists (l1 ++ lb ++ l3). split; [econstructor; [eassumption|econstructor; eassumption]|].
    intros x Hx. apply in_app_iff in Hx as [Hx|Hx]; [|apply in_app_iff in Hx as [Hx|Hx]].
    - exists n, t. split; [exact Ht|]. intros a. destruct (I1 a) as [A1 A2]. split; intros [Ha|[]]; subst; auto.
    - destruct (Ib _ Hx) as (l' & Hl' & Hx'). destruct (L4 _ _ Hl' Hx') as (i & c & Hi & Ii). exists i, c. auto.
    - exists n, t. split; [exact Ht|]. intros a. destruct (I3 a) as [A1 A2]. split; intros [Ha|[]]; subst; auto. }
  destruct (0 <? length sons) eqn:Es.
  - destruct (tloop_rf _ _ _ _ (0 <? pd) L2 (fun _ => L3)) as (lb & B1 & B2).
    destruct (Fin _ _ B1 B2) as (l & F1 & F2). eexists. exists l. split; [|split; [exact F1|exact F2]].
    unfold t at 1. cbn [iterate_parallel]. fold t. rewrite Es.
    rewrite N1. cbn [rbind app]. unfold get_desc at 1. rewrite (D t (nodes_refl t)). cbn [rbind].
    rewrite (nodes_eq t). change (c_sons t) with sons. cbn [length].
    replace (n + 1 + _ =? _) with true by (symmetry; apply Nat.eqb_eq; lia). cbn [rassert rbind].
    match goal with |- context [rbind (rbind ?x _) _] => change x with (go sons names) end. rewrite L1. reflexivity.
  - exists (Tseq (tcall pre t n) (Tseq (Tp (Ret tt)) (tcall post t n))).
    assert (En : sons = []) by (destruct sons; [reflexivity|discriminate]).
    destruct (Fin (Tp (Ret tt)) []) as (l & F1 & F2).
    + rewrite En in E2. cbn in E2. injection E2 as _ <-. constructor. constructor.
    + intros x [].
    + exists l. split; [|split; assumption]. unfold t at 1. cbn [iterate_parallel]. fold t. rewrite Es. reflexivity.
Qed.
End Par.
