(** * C60: admissibility conditions

    Property: for clusters with bounding boxes of the same dimension and
    [eta >= 0], admissible_2_cluster and admissible_max_cluster accept a pair
    of clusters exactly if any two points of the first box and any two points
    of the second box are at most [eta] times as far apart as any point of the
    first from any point of the second, in the Euclidean norm and the maximum
    norm; admissible_2_min_cluster accepts it exactly if this holds for one of
    the boxes; admissible_sphere_cluster accepts it exactly if it holds for the
    balls around the boxes, and then it holds for the boxes.  Consequently the
    supports that belong to the admissible leaves of a block tree are as far
    apart as the condition promises. *)
From Coq Require Import Arith Lia List Bool QArith Qcanon Permutation.
From Coq Require Reals Lra.
From Verif Require Import Fld Inst Ord OrdInst Prog Arr Cluster ClusterSpec ClusterP ClusterP4 Block BlockSpec
  BlockP BlockP2 PropBlock Admis AdmisSpec AdmisP AdmisP2.
Import ListNotations.
Local Open Scope nat_scope.

Theorem C60_admissible_2 : forall (K : ofops), ofield_laws K -> forall sq, sqrt_laws (K:=K) sq ->
  forall d (t s : cluster K) T1 T2 S1 S2 eta, box_of d t T1 T2 -> box_of d s S1 S2 -> fle f0 eta ->
  exists b, admissible_2_cluster eta t s = Ok b /\
    (b = true <-> separated (edist sq d) eta (in_box d T1 T2) (in_box d S1 S2) (in_box d T1 T2) /\
                  separated (edist sq d) eta (in_box d T1 T2) (in_box d S1 S2) (in_box d S1 S2)).
Proof. intros. eapply run_adm_2; eassumption. Qed.
Print Assumptions C60_admissible_2.

Theorem C60_admissible_max : forall (K : ofops), ofield_laws K ->
  forall d (t s : cluster K) T1 T2 S1 S2 eta, box_of d t T1 T2 -> box_of d s S1 S2 -> fle f0 eta ->
  exists b, admissible_max_cluster eta t s = Ok b /\
    (b = true <-> separated (distmax d) eta (in_box d T1 T2) (in_box d S1 S2) (in_box d T1 T2) /\
                  separated (distmax d) eta (in_box d T1 T2) (in_box d S1 S2) (in_box d S1 S2)).
Proof. intros. eapply run_adm_max; eassumption. Qed.
Print Assumptions C60_admissible_max.

Theorem C60_admissible_2_min : forall (K : ofops), ofield_laws K -> forall sq, sqrt_laws (K:=K) sq ->
  forall d (t s : cluster K) T1 T2 S1 S2 eta, box_of d t T1 T2 -> box_of d s S1 S2 -> fle f0 eta ->
  exists b, admissible_2_min_cluster sq eta t s = Ok b /\
    (b = true <-> separated (edist sq d) eta (in_box d T1 T2) (in_box d S1 S2) (in_box d T1 T2) \/
                  separated (edist sq d) eta (in_box d T1 T2) (in_box d S1 S2) (in_box d S1 S2)).
Proof. intros. eapply run_adm_2_min; eassumption. Qed.
Print Assumptions C60_admissible_2_min.

Theorem C60_admissible_sphere : forall (K : ofops), ofield_laws K -> forall sq, sqrt_laws (K:=K) sq ->
  forall d (t s : cluster K) T1 T2 S1 S2 eta, box_of d t T1 T2 -> box_of d s S1 S2 -> fle f0 eta ->
  exists b, admissible_sphere_cluster sq eta t s = Ok b /\
    (b = true <->
      separated (edist sq d) eta (in_ball sq d T1 T2) (in_ball sq d S1 S2) (in_ball sq d T1 T2) /\
      separated (edist sq d) eta (in_ball sq d T1 T2) (in_ball sq d S1 S2) (in_ball sq d S1 S2)) /\
    (forall x, in_box d T1 T2 x -> in_ball sq d T1 T2 x) /\ (forall x, in_box d S1 S2 x -> in_ball sq d S1 S2 x).
Proof.
  intros K L sq Hsq d t s T1 T2 S1 S2 eta Bt Bs He.
  destruct (run_adm_sphere L sq Hsq d t s T1 T2 S1 S2 eta Bt Bs He) as (b & E & H).
  exists b. split; [exact E|]. split; [exact H|].
  split; intros x Hx; eapply box_in_ball; try eassumption; [apply Bt|apply Bs].
Qed.
Print Assumptions C60_admissible_sphere.

(** The condition with spheres implies the one with boxes, and this one implies
    the weak one. *)
Theorem C60_order : forall (K : ofops), ofield_laws K -> forall sq, sqrt_laws (K:=K) sq ->
  forall d (t s : cluster K) T1 T2 S1 S2 eta, box_of d t T1 T2 -> box_of d s S1 S2 -> fle f0 eta ->
  (admissible_sphere_cluster sq eta t s = Ok true -> admissible_2_cluster eta t s = Ok true) /\
  (admissible_2_cluster eta t s = Ok true -> admissible_2_min_cluster sq eta t s = Ok true).
Proof.
  intros K L sq Hsq d t s T1 T2 S1 S2 eta Bt Bs He.
  destruct (run_adm_sphere L sq Hsq d t s T1 T2 S1 S2 eta Bt Bs He) as (b1 & E1 & H1).
  destruct (run_adm_2 L sq Hsq d t s T1 T2 S1 S2 Bt Bs eta He) as (b2 & E2 & H2).
  destruct (run_adm_2_min L sq Hsq d t s T1 T2 S1 S2 Bt Bs eta He) as (b3 & E3 & H3).
  rewrite E1, E2, E3. split; intros H; injection H as ->; f_equal.
  - apply H2. apply (sphere_box L sq Hsq); [apply Bt|apply Bs|]. apply H1. reflexivity.
  - apply H3. left. apply H2. reflexivity.
Qed.
Print Assumptions C60_order.

(** The supports of the indices of an admissible leaf. *)
Theorem C60_leaves : forall (K : ofops), ofield_laws K -> forall sq, sqrt_laws (K:=K) sq ->
  forall eta, fle f0 eta ->
  forall admis, In admis [admissible_2_cluster eta; admissible_sphere_cluster sq eta] ->
  forall d (rt ct : cluster K) f g Smin Smax Rmin Rmax fuel,
  partition_tree rt -> partition_tree ct ->
  boxed_tree d Smin Smax f rt -> boxed_tree d Rmin Rmax g ct -> getdepth rt + getdepth ct < fuel ->
  forall build, In build [build_nonstrict admis fuel; build_strict admis fuel] ->
  exists b, build (CP [] rt) (CP [] ct) = Ok b /\
    (* all pairs of indices are covered by leaves *)
    Permutation (flat_map (bpairs f g) (bleaves b)) (list_prod (indices f rt) (indices g ct)) /\
    forall x, In x (bnodes b) -> b_a x = true ->
    forall i j, In (i, j) (bpairs f g x) ->
    forall p q, in_box d (Smin i) (Smax i) p -> in_box d (Rmin j) (Rmax j) q ->
      (forall i1 i2 p1 p2, In (i1, j) (bpairs f g x) -> In (i2, j) (bpairs f g x) ->
         in_box d (Smin i1) (Smax i1) p1 -> in_box d (Smin i2) (Smax i2) p2 ->
         fle (edist sq d p1 p2) (eta * edist sq d p q)%F) /\
      (forall j1 j2 q1 q2, In (i, j1) (bpairs f g x) -> In (i, j2) (bpairs f g x) ->
         in_box d (Rmin j1) (Rmax j1) q1 -> in_box d (Rmin j2) (Rmax j2) q2 ->
         fle (edist sq d q1 q2) (eta * edist sq d p q)%F).
Proof.
  intros K L sq Hsq eta He admis Hadm d rt ct f g Smin Smax Rmin Rmax fuel P1 P2 B1 B2 HF build Hb.
  set (A := fun r c : cluster K => match admis r c with Ok b => b | _ => false end).
  assert (HA : evaluates admis A rt ct).
  { intros r c Hr Hc. destruct (B1 r Hr) as (T1 & T2 & Bt & _), (B2 c Hc) as (S1 & S2 & Bs & _). unfold A.
    destruct Hadm as [<-|[<-|[]]].
    - destruct (run_adm_2 L sq Hsq d r c T1 T2 S1 S2 Bt Bs eta He) as (b & -> & _). reflexivity.
    - destruct (run_adm_sphere L sq Hsq d r c T1 T2 S1 S2 eta Bt Bs He) as (b & -> & _). reflexivity. }
  assert (HS : forall r c, In r (nodes rt) -> In c (nodes ct) -> A r c = true -> admissible_2_cluster eta r c = Ok true).
  { intros r c Hr Hc Ha. pose proof (HA r c Hr Hc) as E. rewrite Ha in E.
    destruct Hadm as [<-|[<-|[]]]; [exact E|].
    destruct (B1 r Hr) as (T1 & T2 & Bt & _), (B2 c Hc) as (S1 & S2 & Bs & _).
    apply (C60_order K L sq Hsq d r c T1 T2 S1 S2 eta Bt Bs He). exact E. }
  assert (HB : exists b, build (CP [] rt) (CP [] ct) = Ok b /\
    Permutation (flat_map (bpairs f g) (bleaves b)) (list_prod (indices f rt) (indices g ct)) /\
    forall x, In x (bnodes b) -> In (cp_c (b_rc x)) (nodes rt) /\ In (cp_c (b_cc x)) (nodes ct) /\
       b_a x = A (cp_c (b_rc x)) (cp_c (b_cc x))).
  { destruct Hb as [<-|[<-|[]]].
    - destruct (C10_build_nonstrict admis A rt ct f g fuel P1 P2 HA HF) as (b & E & C & N & _).
      exists b. split; [exact E|]. split; [exact C|]. intros x Hx. destruct (N x Hx) as (X1 & X2 & X3 & _). auto.
    - destruct (C10_build_strict admis A rt ct f g fuel P1 P2 HA HF) as (b & E & C & N & _).
      exists b. split; [exact E|]. split; [exact C|]. intros x Hx. destruct (N x Hx) as (X1 & X2 & X3 & _). auto. }
  destruct HB as (b & E & C & N). exists b. split; [exact E|]. split; [exact C|].
  intros x Hx Ha i j Hij p q Hp Hq. destruct (N x Hx) as (X1 & X2 & X3). rewrite Ha in X3. symmetry in X3.
  pose proof (HS _ _ X1 X2 X3) as E2.
  destruct (B1 _ X1) as (T1 & T2 & Bt & It), (B2 _ X2) as (S1 & S2 & Bs & Is).
  destruct (run_adm_2 L sq Hsq d _ _ T1 T2 S1 S2 Bt Bs eta He) as (b2 & E3 & H2).
  rewrite E2 in E3. injection E3 as <-. destruct (proj1 H2 eq_refl) as [Z1 Z2].
  assert (O := ofield_order L).
  assert (IT : forall k y, In k (indices f (cp_c (b_rc x))) -> in_box d (Smin k) (Smax k) y -> in_box d T1 T2 y).
  { intros k y Hk Hy l Hl. destruct (It k l Hk Hl) as [U1 U2], (Hy l Hl) as [W1 W2].
    split; [exact (ole_trans O _ _ _ U1 W1)|exact (ole_trans O _ _ _ W2 U2)]. }
  assert (IS : forall k y, In k (indices g (cp_c (b_cc x))) -> in_box d (Rmin k) (Rmax k) y -> in_box d S1 S2 y).
  { intros k y Hk Hy l Hl. destruct (Is k l Hk Hl) as [U1 U2], (Hy l Hl) as [W1 W2].
    split; [exact (ole_trans O _ _ _ U1 W1)|exact (ole_trans O _ _ _ W2 U2)]. }
  unfold bpairs in *. apply in_prod_iff in Hij. destruct Hij as [Hi Hj].
  split.
  - intros i1 i2 p1 p2 H1 H3 Q1 Q2. apply in_prod_iff in H1, H3. destruct H1 as [H1 _], H3 as [H3 _].
    apply Z1; [exact (IT i p Hi Hp)|exact (IS j q Hj Hq)|exact (IT i1 p1 H1 Q1)|exact (IT i2 p2 H3 Q2)].
  - intros j1 j2 q1 q2 H1 H3 Q1 Q2. apply in_prod_iff in H1, H3. destruct H1 as [_ H1], H3 as [_ H3].
    apply Z2; [exact (IT i p Hi Hp)|exact (IS j q Hj Hq)|exact (IS j1 q1 H1 Q1)|exact (IS j2 q2 H3 Q2)].
Qed.
Print Assumptions C60_leaves.

(** Clusters of different dimension: three of the functions stop with a failed
    assertion, admissible_2_cluster reads outside the bounding box. *)
Theorem C60_dimension : forall (K : ofops), ofield_laws K -> forall sq d d' (t s : cluster K) T1 T2 S1 S2 eta,
  box_of d t T1 T2 -> box_of d' s S1 S2 -> d <> d' ->
  admissible_max_cluster eta t s = Err EAssert /\ admissible_sphere_cluster sq eta t s = Err EAssert /\
  admissible_2_min_cluster sq eta t s = Err EAssert.
Proof.
  intros K L sq d d' t s T1 T2 S1 S2 eta (D & V1 & V2 & H) (D' & V1' & V2' & H') N.
  assert (NE : (c_dim t =? c_dim s) = false) by (apply Nat.eqb_neq; congruence).
  assert (NE' : (c_dim s =? c_dim t) = false) by (apply Nat.eqb_neq; congruence).
  split; [|split].
  - unfold admissible_max_cluster.
    rewrite (diam_max_val L d t T1 T2 D V1 V2 H), (diam_max_val L d' s S1 S2 D' V1' V2' H'). cbn [rbind].
    unfold getdist_max. rewrite NE. reflexivity.
  - unfold admissible_sphere_cluster. cbv zeta. rewrite NE'. reflexivity.
  - unfold admissible_2_min_cluster. rewrite (diam_2_val d t T1 T2 D V1 V2), (diam_2_val d' s S1 S2 D' V1' V2').
    cbn [rbind]. unfold getdist_2. rewrite NE. reflexivity.
Qed.
Print Assumptions C60_dimension.

Theorem C60_admissible_2_dimension_refuted : forall (K : ofops) d' (t s : cluster K) T1 T2 S1 S2 eta,
  box_of (S d') t T1 T2 -> box_of d' s S1 S2 -> admissible_2_cluster eta t s = Err EBounds.
Proof.
  intros K d' t s T1 T2 S1 S2 eta (D & V1 & V2 & H) (D' & V1' & V2' & H'). unfold admissible_2_cluster. rewrite D.
  assert (G : forall n lo v, lo + n = S d' -> n <> 0 ->
    rfor lo n (fun i '(diamt, diams, dist) =>
      let* rb := aget (c_bmax t) i in
      let* ra := aget (c_bmin t) i in
      let diamt := (diamt + (rb - ra) * (rb - ra))%F in
      let* cb := aget (c_bmax s) i in
      let* ca := aget (c_bmin s) i in
      let diams := (diams + (cb - ca) * (cb - ca))%F in
      let a := max3 f0 (ra - cb)%F (ca - rb)%F in
      Ok (diamt, diams, dist + a * a)%F) v = Err EBounds).
  { induction n as [|n IH]; intros lo [[a b] c] Hn Hz; [congruence|]. cbn [rfor].
    rewrite (aval_get _ _ _ _ V2), (aval_get _ _ _ _ V1) by lia. cbn [rbind].
    destruct (Nat.eq_dec lo d') as [->|Nd].
    - unfold aget at 1. destruct V2' as [Len _].
      replace (nth_error (c_bmax s) d') with (@None (option K)); [reflexivity|].
      symmetry. apply nth_error_None. lia.
    - rewrite (aval_get _ _ _ _ V2'), (aval_get _ _ _ _ V1') by lia. cbn [rbind]. apply IH; lia. }
  rewrite G by lia. reflexivity.
Qed.
Print Assumptions C60_admissible_2_dimension_refuted.

(** ** The hypotheses can be met *)
Definition abox (K : ofops) (a b : K) : cluster K := Cl 1 0 [] 2 (aof [a; a]) (aof [b; b]) None 0.
Lemma abox_of (K : ofops) (a b : K) : fle a b -> box_of 2 (abox K a b) (fun _ => a) (fun _ => b).
Proof.
  intros H. split; [reflexivity|].
  split; [split; [reflexivity|intros [|[|i]] Hi; [reflexivity|reflexivity|lia]]|].
  split; [split; [reflexivity|intros [|[|i]] Hi; [reflexivity|reflexivity|lia]]|]. intros. exact H.
Qed.
Definition zr (z : Z) : RO := Rdefinitions.IZR z.
Example C60_hyps : ofield_laws RO /\ sqrt_laws (K:=RO) R_sqrt.sqrt /\
  box_of 2 (abox RO (zr 0) (zr 1)) (fun _ => (zr 0)) (fun _ => (zr 1)) /\ box_of 2 (abox RO (zr 2) (zr 3)) (fun _ => (zr 2)) (fun _ => (zr 3)) /\
  fle (K:=RO) f0 (zr 1) /\ boxed_tree (K:=RO) 2 (fun _ _ => (zr 0)) (fun _ _ => (zr 1)) (fun k => k) (abox RO (zr 0) (zr 1)) /\
  partition_tree (abox RO (zr 0) (zr 1)).
Proof.
  assert (L01 : fle (K:=RO) (zr 0) (zr 1)) by (apply R_ltb_false; cbv [zr]; Lra.lra).
  assert (B01 := abox_of RO (zr 0) (zr 1) L01).
  split; [apply RO_laws|]. split; [apply RO_sqrt|]. split; [exact B01|].
  split; [apply abox_of; apply R_ltb_false; cbv [zr]; Lra.lra|]. split; [exact L01|]. split.
  - intros r Hr. cbn in Hr. destruct Hr as [<-|[]]. exists (fun _ => (zr 0)), (fun _ => (zr 1)). split; [exact B01|].
    intros k j _ _. split; apply R_ltb_false; cbv [zr]; Lra.lra.
  - intros r Hr. cbn in Hr. destruct Hr as [<-|[]]. split; [cbn; lia|]. intros Hs. exfalso. apply Hs. reflexivity.
Qed.
(** Both answers occur. *)
Example C60_values :
  admissible_2_cluster (K:=QcO) 1%Qc (abox QcO 0%Qc 1%Qc) (abox QcO (Q2Qc 2) (Q2Qc 3)) = Ok true /\
  admissible_2_cluster (K:=QcO) 1%Qc (abox QcO 0%Qc 1%Qc) (abox QcO (Q2Qc (3 # 2)) (Q2Qc 3)) = Ok false /\
  admissible_max_cluster (K:=QcO) 1%Qc (abox QcO 0%Qc 1%Qc) (abox QcO (Q2Qc 2) (Q2Qc 3)) = Ok true /\
  admissible_max_cluster (K:=QcO) 1%Qc (abox QcO (Q2Qc 2) (Q2Qc 4)) (abox QcO 0%Qc 1%Qc) = Ok false.
Proof. split; [|split; [|split]]; vm_compute; reflexivity. Qed.
