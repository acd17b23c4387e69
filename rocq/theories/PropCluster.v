(** * Properties C04-C08 and C43: cluster trees *)
From Coq Require Import Arith Lia List Bool Permutation ZArith SpecFloat.
From Coq Require Rdefinitions R_sqrt Lra.
From Verif Require Import Fld Ord Inst OrdInst Prog Arr Loop Cluster ClusterSpec ClusterP ClusterP2 ClusterP3
  ClusterP4 ClusterP5 ClusterP6.
Import ListNotations.

(** Arguments of build_cluster: a geometry with points [X], supports [Smin],
    [Smax] and weights [W], and an index array with contents [f] whose entries
    at positions [off .. off+size-1] are valid indices. *)
Record input {K : ofops} (cf : cgeom K) (idx : arr nat) (off size : nat)
  (X Smin Smax : nat -> nat -> K) (W : nat -> K) (n : nat) (f : nat -> nat) : Prop := Input {
  in_geo : geo_val cf X Smin Smax W;
  in_dim : 0 < g_dim cf;
  in_idx : aval idx n f;
  in_range : off + size <= n;
  in_size : 0 < size;
  in_valid : forall i, off <= i < off + size -> f i < g_nidx cf
}.

(** What the caller gets: the index array is rearranged between [off] and
    [off+size-1] only, and the tree partitions this range. *)
Record output {K : ofops} (off size n : nat) (f f' : nat -> nat) (idx' : arr nat) (t : cluster K) : Prop := Output {
  out_idx : aval idx' n f';
  out_perm : Permutation (slice f' off size) (slice f off size);
  out_frame : forall i, ~ (off <= i < off + size) -> f' i = f i;
  out_root : indices f' t = slice f' off size;
  out_part : partition_tree t;
  out_desc : desc_ok t
}.

Lemma built_output {K : ofops} (cf : cgeom K) X Smin Smax ad n f off size clf t cf' idx' :
  built X Smin Smax (g_dim cf) clf ad cf n f off size (t, cf', idx') ->
  exists f', output off size n f f' idx' t /\ tok X Smin Smax (g_dim cf) clf ad f' off size t.
Proof.
  intros (f' & A1 & A2 & A3 & A4 & A5). exists f'. split; [|exact A5]. destruct A5 as (E1 & E2 & C).
  constructor; auto.
  - apply Permutation_sym. exact A3.
  - unfold indices. rewrite E1, E2. reflexivity.
  - intros s Hs. split; [apply (cn_pos _ _ _ _ _ _ _ _ (C s Hs))|apply (cn_tiles _ _ _ _ _ _ _ _ (C s Hs))].
  - intros s Hs. apply (cn_desc _ _ _ _ _ _ _ _ (C s Hs)).
Qed.

Section Build.
Context {K : ofops} (eig : nat -> arr K -> arr K) (Heig : eig_ok eig).

(** ** C04: cluster trees partition the index set.  For every scalar arithmetic
    (no laws are assumed, so the statement includes any rounding), every
    strategy, dimension, point set, leaf size and recursion bound: if
    build_cluster returns, the result is a partition tree, and it never
    accesses anything outside the arrays, reads uninitialised memory or
    follows a null pointer; the only errors left are failed assertions and
    unbounded recursion (see C05). *)
Theorem C04_build_cluster fuel cf idx off size clf mode X Smin Smax W n f :
  input cf idx off size X Smin Smax W n f ->
  match build_cluster eig fuel cf idx off size clf mode with
  | Ok (t, cf', idx') => exists f', output off size n f f' idx' t
  | Err e => e = EAssert \/ e = EFuel
  end.
Proof.
  intros [G D I R S V].
  pose proof (rok_build X Smin Smax W (g_nidx cf) (g_dim cf) clf D eig fuel mode Heig cf idx n f off size
    (conj G (conj eq_refl eq_refl)) (conj I (conj R V)) S) as H.
  destruct (build_cluster _ _ _ _ _ _ _ _) as [[[t cf'] idx']|e]; cbn in H.
  - apply built_output in H as (f' & H & _). exists f'. exact H.
  - destruct mode; cbn in H; unfold bad_ad, bad_reg, bad_ss in H; tauto.
Qed.

(** The leaves, from left to right, contain the indices of the root, and the
    leaves together contain exactly the given indices. *)
Theorem C04_leaves off size n f f' idx' (t : cluster K) : output off size n f f' idx' t ->
  flat_map (indices f') (leaves t) = indices f' t /\
  Permutation (flat_map (indices f') (leaves t)) (slice f off size).
Proof.
  intros O. assert (E : flat_map (indices f') (leaves t) = indices f' t) by (apply leaves_indices; apply O).
  split; [exact E|]. rewrite E, (out_root _ _ _ _ _ _ _ O). apply O.
Qed.

(** Sizes: leaves have at most [clf] indices; adaptive clustering stops earlier
    only if all points of the leaf coincide. *)
Theorem C04_leaf_size fuel cf idx off size clf mode X Smin Smax W n f t cf' idx' :
  input cf idx off size X Smin Smax W n f ->
  build_cluster eig fuel cf idx off size clf mode = Ok (t, cf', idx') ->
  forall f', aval idx' n f' -> forall s, In s (leaves t) ->
    c_size s <= clf \/
    (mode = H2_ADAPTIVE /\ (ofield_laws K -> forall k l, In k (indices f' s) -> In l (indices f' s) ->
      same_point (g_dim cf) X k l)).
Proof.
  intros [G D I R S V] E f' If s Hs.
  pose proof (rok_build X Smin Smax W (g_nidx cf) (g_dim cf) clf D eig fuel mode Heig cf idx n f off size
    (conj G (conj eq_refl eq_refl)) (conj I (conj R V)) S) as H.
  rewrite E in H. cbn [rokE] in H. apply built_output in H as (f2 & O & (E1 & E2 & C)).
  assert (Hn : In s (nodes t) /\ c_sons s = []).
  { clear - Hs. induction t as [size off sons dim b1 b2 ds typ IH] using cluster_rect'.
    rewrite leaves_eq in Hs. cbn [c_sons] in Hs. destruct sons as [|s0 sons].
    - destruct Hs as [<-|[]]. split; [apply nodes_refl|reflexivity].
    - apply in_flat_map in Hs as (c & Hc & Hs). rewrite Forall_forall in IH.
      destruct (IH c Hc Hs) as [A B]. split; [|exact B]. rewrite in_nodes. right. exists c. split; assumption. }
  destruct Hn as [Hn Hl]. pose proof (C s Hn) as CN.
  assert (W' : off <= c_off s /\ c_off s + c_size s <= off + size).
  { destruct (nodes_within t (fun x Hx => cn_tiles _ _ _ _ _ _ _ _ (C x Hx)) s Hn). lia. }
  destruct (cn_leaf _ _ _ _ _ _ _ _ CN Hl) as [Hle|[Had Hsame]]; [left; exact Hle|right].
  split; [destruct mode; cbn in Had; congruence|].
  intros L k l Hk Hl'. unfold indices in *. apply in_slice in Hk as (i & Hi & <-). apply in_slice in Hl' as (i' & Hi' & <-).
  assert (Ef : forall j, j < n -> f' j = f2 j).
  { intros j Hj. pose proof (proj2 If j Hj) as A. rewrite (proj2 (out_idx _ _ _ _ _ _ _ O) j Hj) in A. congruence. }
  rewrite !Ef by lia. apply Hsame; assumption.
Qed.

(** ** C05: termination.  In exact arithmetic adaptive clustering returns for
    every point set, coinciding points included. *)
Theorem C05_adaptive_terminates fuel cf idx off size clf X Smin Smax W n f :
  ofield_laws K -> input cf idx off size X Smin Smax W n f -> size <= fuel ->
  exists r, build_cluster eig fuel cf idx off size clf H2_ADAPTIVE = Ok r.
Proof.
  intros L [G D I R S V] Hf.
  pose proof (rok_build X Smin Smax W (g_nidx cf) (g_dim cf) clf D eig fuel H2_ADAPTIVE Heig cf idx n f off size
    (conj G (conj eq_refl eq_refl)) (conj I (conj R V)) S) as H.
  destruct (build_cluster _ _ _ _ _ _ _ _) as [r|e]; [exists r; reflexivity|].
  destruct H as [[_ H]|[_ H]]; [lia|contradiction].
Qed.

(** Regular clustering returns if no more than [clf] points coincide. *)
Theorem C05_regular_terminates fuel cf idx off size clf X Smin Smax W n f :
  ofield_laws K -> input cf idx off size X Smin Smax W n f ->
  no_clump (g_dim cf) X f off size clf -> (size + 1) * g_dim cf <= fuel ->
  exists r, build_cluster eig fuel cf idx off size clf H2_REGULAR = Ok r.
Proof.
  intros L [G D I R S V] NC Hf.
  pose proof (rok_build X Smin Smax W (g_nidx cf) (g_dim cf) clf D eig fuel H2_REGULAR Heig cf idx n f off size
    (conj G (conj eq_refl eq_refl)) (conj I (conj R V)) S) as H.
  destruct (build_cluster _ _ _ _ _ _ _ _) as [r|e]; [exists r; reflexivity|].
  destruct H as [_ H]. contradiction H. apply good_reg_ex; auto. apply no_clump_spread; assumption.
Qed.

(** Simultaneous subdivision: likewise, in an Archimedean field; the recursion
    depth depends on the smallest distance between different coordinates. *)
Theorem C05_simsub_terminates cf idx off size clf X Smin Smax W n f :
  ofield_laws K -> archimedean K -> input cf idx off size X Smin Smax W n f ->
  no_clump (g_dim cf) X f off size clf ->
  exists fuel0, forall fuel, fuel0 <= fuel ->
    exists r, build_cluster eig fuel cf idx off size clf H2_SIMSUB = Ok r.
Proof.
  intros L A [G D I R S V] NC.
  destruct (good_ss_ex X (g_dim cf) clf D L A f off size S (no_clump_spread X (g_dim cf) clf D L f off size NC)) as (n0 & H0).
  exists n0. intros fuel Hf.
  pose proof (rok_build X Smin Smax W (g_nidx cf) (g_dim cf) clf D eig fuel H2_SIMSUB Heig cf idx n f off size
    (conj G (conj eq_refl eq_refl)) (conj I (conj R V)) S) as H.
  destruct (build_cluster _ _ _ _ _ _ _ _) as [r|e]; [exists r; reflexivity|].
  destruct H as [_ H]. contradiction H. apply H0. exact Hf.
Qed.

(** The property fails for the other strategies: if more than [clf] indices
    share one point, the recursion never ends, whatever its depth. *)
Theorem C05_coincident_points_refuted cf idx off size clf mode X Smin Smax W n f :
  ofield_laws K -> input cf idx off size X Smin Smax W n f ->
  clf < size -> (forall i i', off <= i < off + size -> off <= i' < off + size -> same_point (g_dim cf) X (f i) (f i')) ->
  mode <> H2_ADAPTIVE ->
  forall fuel, build_cluster eig fuel cf idx off size clf mode = Err EFuel.
Proof.
  intros L [G D I R S V] Hc C Hm fuel.
  assert (G' : gok X Smin Smax W (g_nidx cf) (g_dim cf) cf) by (split; [exact G|split; reflexivity]).
  assert (I' : iok (g_nidx cf) idx n f off size) by (split; [exact I|split; assumption]).
  pose proof (rok_point_bbox X Smin Smax W (g_nidx cf) (g_dim cf) cf idx n f off size G' I' S) as B.
  unfold build_cluster. destruct mode; [contradiction| | |].
  - apply rok_inv in B as (cf1 & -> & GS & G1 & V1 & V2). cbn [rbind].
    exact (regular_diverges X Smin Smax W (g_nidx cf) (g_dim cf) clf D L fuel cf1 idx n f off size 0 G1 I' Hc C D).
  - apply rok_inv in B as (cf1 & -> & GS & G1 & V1 & V2). cbn [rbind].
    apply (simsub_diverges X Smin Smax W (g_nidx cf) (g_dim cf) clf D L fuel cf1 idx n f off size _ _ G1 I' Hc V1 V2). intros j Hj.
    destruct (coincide_box X (g_dim cf) D f off size j C S Hj) as [-> ->]. reflexivity.
  - exact (pca_diverges X Smin Smax W (g_nidx cf) (g_dim cf) clf D eig fuel Heig cf idx n f off size G' I' Hc C).
Qed.
End Build.

(** With rounding, adaptive clustering can stop on a failed assertion: for the
    points 1 and 1 + 2^-52 the midpoint is rounded to 1, the left half stays
    empty and update_bbox_cluster finds no son. *)
Definition pt (m : positive) : F64 := S754_finite false m (-52).
Definition xfloat : cgeom F64 :=
  let rows := aof [aof [pt 4503599627370496]; aof [pt 4503599627370497]] in
  CGeom (K:=F64) 1 2 rows rows rows (aof [pt 4503599627370496; pt 4503599627370496]) (anew 1) (anew 1).
Definition xfloat_x (k j : nat) : F64 := if k =? 0 then pt 4503599627370496 else pt 4503599627370497.

Lemma is_err {A} (r : res A) e : match r with Err e' => Some e' | Ok _ => None end = Some e -> r = Err e.
Proof. destruct r; congruence. Qed.

Theorem C05_adaptive_rounding_refuted : exists (cf : cgeom F64) idx X Smin Smax W n f,
  input cf idx 0 2 X Smin Smax W n f /\
  forall eig fuel, build_cluster eig (S fuel) cf idx 0 2 1 H2_ADAPTIVE = Err EAssert.
Proof.
  exists xfloat, (aof [0; 1]), xfloat_x, xfloat_x, xfloat_x, (fun _ => pt 4503599627370496), 2, (fun i => i).
  split; [|intros eig fuel; apply is_err; vm_compute; reflexivity].
  assert (RV : row_val (g_x xfloat) 2 1 xfloat_x).
  { intros [|[|k]] Hk; [| |lia]; (eexists; split; [reflexivity|]; split; [reflexivity|]; intros [|i] Hi; [reflexivity|lia]). }
  constructor; cbn; try lia.
  - constructor; cbn; try exact RV; try reflexivity.
    split; [reflexivity|]. intros [|[|k]] Hk; [reflexivity|reflexivity|lia].
  - split; [reflexivity|]. intros [|[|k]] Hk; [reflexivity|reflexivity|lia].
Qed.

(** Examples: four points in the plane, two of them equal. *)
Definition xp (l : list (Z * Z)) : arr (arr QcO) := aof (map (fun '(a, b) => aof [qo a; qo b]) l).
Definition xpl : list (Z * Z) := [(0, 0); (4, 1); (1, 3); (4, 1)]%Z.
Definition xgeo : cgeom QcO :=
  CGeom (K:=QcO) 2 4 (xp xpl) (xp xpl) (xp (map (fun '(a, b) => (a + 1, b + 1)%Z) xpl)) (aof [qo 1; qo 1; qo 1; qo 1])
    (anew 2) (anew 2).
Definition xval (l : list (Z * Z)) (k j : nat) : QcO :=
  let '(a, b) := nth k l (0, 0)%Z in if j =? 0 then qo a else qo b.
Definition xeig (d : nat) (c : arr QcO) : arr QcO := aof (repeat (qo 1) d).

Lemma xp_val l : row_val (xp l) (length l) 2 (xval l).
Proof.
  intros k Hk. unfold xp, aof, xval. rewrite map_map, nth_error_map. rewrite (nth_error_nth' l (0, 0)%Z Hk).
  destruct (nth k l (0, 0)%Z) as [a b]. eexists. split; [reflexivity|]. split; [reflexivity|].
  intros [|[|i]] Hi; [reflexivity|reflexivity|lia].
Qed.

Lemma xeig_ok : eig_ok xeig.
Proof.
  intros dim c. exists (fun i => nth i (repeat (qo 1) dim) (qo 0)). unfold xeig.
  rewrite <- (repeat_length (qo 1) dim) at 2. apply aof_val.
Qed.

Example xinput : input xgeo (aof [3; 1; 0; 2]) 0 4 (xval xpl) (xval xpl)
  (xval (map (fun '(a, b) => (a + 1, b + 1)%Z) xpl)) (fun _ => qo 1) 4 (fun i => nth i [3; 1; 0; 2] 0).
Proof.
  constructor; cbn; try lia.
  - constructor; [apply (xp_val xpl)|apply (xp_val xpl)|apply (xp_val (map (fun '(a, b) => (a + 1, b + 1)%Z) xpl))| |reflexivity|reflexivity].
    split; [reflexivity|]. intros [|[|[|[|k]]]] Hk; try reflexivity. cbn in Hk. lia.
  - apply (aof_val [3; 1; 0; 2] 0).
  - intros [|[|[|[|i]]]] Hi; cbn; lia.
Qed.

Example xno_clump : no_clump 2 (xval xpl) (fun i => nth i [3; 1; 0; 2] 0) 0 4 2.
Proof.
  intros ps Hnd Hr Hs. destruct (le_gt_dec (length ps) 2) as [H|H]; [exact H|exfalso].
  assert (D : forall p q, In p ps -> In q ps -> 2 <= p -> p = q).
  { intros p q Hp Hq Hp2. pose proof (Hr p Hp). pose proof (Hr q Hq). pose proof (Hs p q Hp Hq) as A.
    pose proof (A 0 ltac:(lia)) as A0. pose proof (A 1 ltac:(lia)) as A1.
    destruct p as [|[|[|[|p]]]]; try lia; destruct q as [|[|[|[|q]]]]; try lia; try reflexivity;
      (discriminate A0 || discriminate A1). }
  destruct ps as [|a [|b [|c ps]]]; cbn in H; try lia.
  inversion Hnd as [|? ? N1 Hnd']; subst. inversion Hnd' as [|? ? N2 Hnd'']; subst.
  cbn in N1, N2.
  destruct (le_gt_dec 2 a); [apply N1; left; symmetry; apply (D a b); cbn; auto|].
  destruct (le_gt_dec 2 b); [apply N1; left; apply (D b a); cbn; auto|].
  destruct (le_gt_dec 2 c); [apply N2; left; apply (D c b); cbn; auto|].
  assert (a <> b) by (intros ->; apply N1; left; reflexivity).
  assert (a <> c) by (intros ->; apply N1; right; left; reflexivity).
  assert (b <> c) by (intros ->; apply N2; left; reflexivity). lia.
Qed.

(** All strategies succeed on this input and split it. *)
Definition xleaf_sizes (m : clustermode) : list nat :=
  match build_cluster xeig 20 xgeo (aof [3; 1; 0; 2]) 0 4 2 m with
  | Ok (t, _, _) => map c_size (leaves t) | Err _ => [] end.
Example xbuild : map xleaf_sizes [H2_ADAPTIVE; H2_REGULAR; H2_SIMSUB; H2_PCA] = [[2; 2]; [2; 2]; [1; 1; 2]; [2; 1; 1]].
Proof. vm_compute. reflexivity. Qed.

(** ** C06: bounding boxes *)

(** update_support_bbox_cluster: the box contains the support of every index of
    the cluster, and every bound is attained by one of them.  Only the laws of
    the comparison are needed, so this holds with rounding. *)
Theorem C06_support_bbox {K : ofops} (O : order_laws K) (cf : cgeom K) X Smin Smax W idx n f
  size off sons dim b1 b2 ds typ :
  input cf idx off size X Smin Smax W n f ->
  length b1 = g_dim cf -> length b2 = g_dim cf ->
  rok (update_support_bbox cf idx (Cl size off sons dim b1 b2 ds typ)) (fun t =>
    exists B1 B2 c1 c2, t = Cl size off sons dim c1 c2 ds typ /\ aval c1 (g_dim cf) B1 /\ aval c2 (g_dim cf) B2 /\
    forall j, j < g_dim cf ->
      (forall k, In k (indices f t) -> fle (B1 j) (Smin k j) /\ fle (Smax k j) (B2 j)) /\
      (exists k, In k (indices f t) /\ B1 j = Smin k j) /\
      (exists k, In k (indices f t) /\ B2 j = Smax k j)).
Proof.
  intros [G D I R S V] L1 L2. eapply rok_conseq; [eapply rok_support_bbox; eassumption|].
  intros t (c1 & c2 & -> & A1 & A2). exists (lo Smin f off (size - 1)), (hi Smax f off (size - 1)), c1, c2.
  split; [reflexivity|]. split; [exact A1|]. split; [exact A2|]. intros j Hj. unfold indices. cbn [c_off c_size].
  split; [|split].
  - intros k Hk. apply in_slice in Hk as (i & Hi & <-).
    split; [apply (lo_le O)|apply (hi_ge O)]; lia.
  - destruct (lo_att Smin f off (size - 1) j) as (i & Hi & E). exists (f i). split; [|exact E].
    apply in_slice. exists i. split; [lia|reflexivity].
  - destruct (hi_att Smax f off (size - 1) j) as (i & Hi & E). exists (f i). split; [|exact E].
    apply in_slice. exists i. split; [lia|reflexivity].
Qed.

(** update_point_bbox_clustergeometry: minima and maxima over the points. *)
Theorem C06_point_bbox {K : ofops} (O : order_laws K) (cf : cgeom K) X Smin Smax W idx n f size off :
  input cf idx off size X Smin Smax W n f ->
  rok (update_point_bbox cf idx off size) (fun cf' =>
    exists B1 B2, aval (g_hmin cf') (g_dim cf) B1 /\ aval (g_hmax cf') (g_dim cf) B2 /\
    cf' = set_h cf (g_hmin cf') (g_hmax cf') /\
    forall j, j < g_dim cf ->
      (forall k, In k (slice f off size) -> fle (B1 j) (X k j) /\ fle (X k j) (B2 j)) /\
      (exists k, In k (slice f off size) /\ B1 j = X k j) /\
      (exists k, In k (slice f off size) /\ B2 j = X k j)).
Proof.
  intros [G D I R S V].
  eapply rok_conseq; [eapply (rok_point_bbox X Smin Smax W (g_nidx cf) (g_dim cf) cf idx n f off size);
    [split; [exact G|split; reflexivity]|split; [exact I|split; assumption]|exact S]|].
  intros cf' (GS & G1 & A1 & A2). exists (lo X f off (size - 1)), (hi X f off (size - 1)).
  split; [exact A1|]. split; [exact A2|]. split; [apply GS|]. intros j Hj. split; [|split].
  - intros k Hk. apply in_slice in Hk as (i & Hi & <-).
    split; [apply (lo_le O)|apply (hi_ge O)]; lia.
  - destruct (lo_att X f off (size - 1) j) as (i & Hi & E). exists (f i). split; [|exact E].
    apply in_slice. exists i. split; [lia|reflexivity].
  - destruct (hi_att X f off (size - 1) j) as (i & Hi & E). exists (f i). split; [|exact E].
    apply in_slice. exists i. split; [lia|reflexivity].
Qed.

(** update_bbox_cluster: the smallest box that contains the boxes of the sons. *)
Theorem C06_update_bbox {K : ofops} (O : order_laws K) size off (sons : list (cluster K)) d b1 b2 ds typ
  (C1 C2 : cluster K -> nat -> K) :
  sons <> [] -> length b1 = d -> length b2 = d ->
  (forall s, In s sons -> aval (c_bmin s) d (C1 s) /\ aval (c_bmax s) d (C2 s)) ->
  rok (update_bbox (Cl size off sons d b1 b2 ds typ)) (fun t =>
    exists c1 c2 B1 B2, t = Cl size off sons d c1 c2 ds typ /\ aval c1 d B1 /\ aval c2 d B2 /\
    forall j, j < d ->
      (forall s, In s sons -> fle (B1 j) (C1 s j) /\ fle (C2 s j) (B2 j)) /\
      (exists s, In s sons /\ B1 j = C1 s j) /\
      (exists s, In s sons /\ B2 j = C2 s j)).
Proof.
  intros Hn L1 L2 HB. eapply rok_conseq; [apply rok_update_bbox; eauto|].
  { intros s Hs. destruct (HB s Hs). exists (C1 s), (C2 s). split; assumption. }
  intros t (c1 & c2 & B1 & B2 & -> & V1 & V2 & J1 & J2 & J3). exists c1, c2, B1, B2.
  split; [reflexivity|]. split; [exact V1|]. split; [exact V2|]. intros j Hj.
  assert (U : forall (a : arr K) F G, aval a d F -> aval a d G -> F j = G j).
  { intros a F G [_ A] [_ B]. specialize (A j Hj). rewrite (B j Hj) in A. congruence. }
  split; [|split].
  - intros s Hs. apply (J1 O s (C1 s) (C2 s) j Hs (HB s Hs) Hj).
  - destruct (J2 j Hj) as (s & D1 & D2 & Hs & [A1 A2] & E). exists s. split; [exact Hs|].
    rewrite E. apply (U (c_bmin s)); [exact A1|apply HB; exact Hs].
  - destruct (J3 j Hj) as (s & D1 & D2 & Hs & [A1 A2] & E). exists s. split; [exact Hs|].
    rewrite E. apply (U (c_bmax s)); [exact A2|apply HB; exact Hs].
Qed.

(** In a finished tree the box of every cluster contains the supports of all
    its indices. *)
Theorem C06_build_cluster {K : ofops} (O : order_laws K) eig fuel cf idx off size clf mode X Smin Smax W n f t cf' idx' :
  eig_ok eig -> input cf idx off size X Smin Smax W n f ->
  build_cluster (K:=K) eig fuel cf idx off size clf mode = Ok (t, cf', idx') ->
  exists f', aval idx' n f' /\ forall s, In s (nodes t) -> box_contains (g_dim cf) Smin Smax f' s.
Proof.
  intros He [G D I R S V] E.
  pose proof (rok_build X Smin Smax W (g_nidx cf) (g_dim cf) clf D eig fuel mode He cf idx n f off size
    (conj G (conj eq_refl eq_refl)) (conj I (conj R V)) S) as H.
  rewrite E in H. cbn [rokE] in H. apply built_output in H as (f2 & Ou & (E1 & E2 & C)).
  exists f2. split; [apply Ou|]. intros s Hs.
  destruct (cn_box _ _ _ _ _ _ _ _ (C s Hs)) as (B1 & B2 & V1 & V2 & Bx). exists B1, B2.
  split; [exact V1|]. split; [exact V2|]. intros k j Hk Hj. apply in_slice in Hk as (i & Hi & <-).
  apply (Bx O); assumption.
Qed.

(** ** C07: distances and diameters of boxes.  [B1], [B2] are the corners. *)
Definition boxed {K : ofops} (d : nat) (t : cluster K) (B1 B2 : nat -> K) : Prop :=
  c_dim t = d /\ aval (c_bmin t) d B1 /\ aval (c_bmax t) d B2 /\ forall j, j < d -> fle (B1 j) (B2 j).

Section Dist.
Context {K : ofops} (L : ofield_laws K) (sq : K -> K) (Hsq : sqrt_laws sq).

Theorem C07_diam_2 d (t : cluster K) B1 B2 : boxed d t B1 B2 ->
  exists r, getdiam_2 sq t = Ok r /\
    (forall x y, in_box d B1 B2 x -> in_box d B1 B2 y -> fle (sq (dist2 d x y)) r) /\
    (exists x y, in_box d B1 B2 x /\ in_box d B1 B2 y /\ r = sq (dist2 d x y)).
Proof.
  intros (D & V1 & V2 & H). eexists. split; [apply (diam_2_val d t B1 B2 D V1 V2)|]. split.
  - intros x y Hx Hy. apply (sq_mono L); [exact Hsq|apply (dist2_nn L)|]. apply (dist2_mono L).
    intros j Hj. apply (diam_bound L d B1 B2 H); assumption.
  - exists B2, B1. split; [|split; [|reflexivity]]; intros j Hj; split; auto; apply (ole_refl (ofield_order L)).
Qed.

Theorem C07_diam_max d (t : cluster K) B1 B2 : boxed d t B1 B2 ->
  exists r, getdiam_max t = Ok r /\
    (forall x y, in_box d B1 B2 x -> in_box d B1 B2 y -> fle (distmax d x y) r) /\
    (exists x y, in_box d B1 B2 x /\ in_box d B1 B2 y /\ r = distmax d x y).
Proof.
  intros (D & V1 & V2 & H). eexists. split; [apply (diam_max_val L d t B1 B2 D V1 V2 H)|]. split.
  - intros x y Hx Hy. apply (distmax_mono L). intros j Hj. apply (diam_bound L d B1 B2 H); assumption.
  - exists B2, B1. split; [|split; [|reflexivity]]; intros j Hj; split; auto; apply (ole_refl (ofield_order L)).
Qed.

Theorem C07_dist_2 d (t s : cluster K) T1 T2 S1 S2 : boxed d t T1 T2 -> boxed d s S1 S2 ->
  exists r, getdist_2 sq t s = Ok r /\
    (forall x y, in_box d T1 T2 x -> in_box d S1 S2 y -> fle r (sq (dist2 d x y))) /\
    (exists x y, in_box d T1 T2 x /\ in_box d S1 S2 y /\ r = sq (dist2 d x y)).
Proof.
  intros (D & V1 & V2 & H) (D' & V1' & V2' & H').
  eexists. split; [apply (dist_2_val L d t s T1 T2 S1 S2 D V1 V2 D' V1' V2')|]. split.
  - intros x y Hx Hy. apply (sq_mono L); [exact Hsq|apply (dist2_nn L)|]. apply (dist2_mono L).
    intros j Hj. apply (near_bound L d T1 T2 S1 S2); assumption.
  - destruct (near_in L d T1 T2 S1 S2 H H'). do 2 eexists. split; [|split; [|reflexivity]]; assumption.
Qed.

Theorem C07_dist_max d (t s : cluster K) T1 T2 S1 S2 : boxed d t T1 T2 -> boxed d s S1 S2 ->
  exists r, getdist_max t s = Ok r /\
    (forall x y, in_box d T1 T2 x -> in_box d S1 S2 y -> fle r (distmax d x y)) /\
    (exists x y, in_box d T1 T2 x /\ in_box d S1 S2 y /\ r = distmax d x y).
Proof.
  intros (D & V1 & V2 & H) (D' & V1' & V2' & H').
  eexists. split; [apply (dist_max_val L d t s T1 T2 S1 S2 D V1 V2 D' V1' V2')|]. split.
  - intros x y Hx Hy. apply (distmax_mono L). intros j Hj. apply (near_bound L d T1 T2 S1 S2); assumption.
  - destruct (near_in L d T1 T2 S1 S2 H H'). do 2 eexists. split; [|split; [|reflexivity]]; assumption.
Qed.
End Dist.

(** Clusters of different dimension are rejected. *)
Theorem C07_dim_mismatch {K : ofops} sq (t s : cluster K) : c_dim t <> c_dim s ->
  getdist_2 sq t s = Err EAssert /\ getdist_max t s = Err EAssert.
Proof.
  intros H. unfold getdist_2, getdist_max. destruct (Nat.eqb_spec (c_dim t) (c_dim s)); [contradiction|]. split; reflexivity.
Qed.

(** The reals with their square root meet the hypotheses, and so do boxes. *)
Definition xbox (a b : Z) : cluster RO :=
  Cl (K:=RO) 1 0 [] 2 (aof [Rdefinitions.IZR a; Rdefinitions.IZR a]) (aof [Rdefinitions.IZR b; Rdefinitions.IZR b]) None 0.
Example xboxed : boxed (K:=RO) 2 (xbox 0 1) (fun _ => Rdefinitions.IZR 0) (fun _ => Rdefinitions.IZR 1) /\
  boxed (K:=RO) 2 (xbox 3 4) (fun _ => Rdefinitions.IZR 3) (fun _ => Rdefinitions.IZR 4) /\
  ofield_laws RO /\ sqrt_laws (K:=RO) R_sqrt.sqrt.
Proof.
  split; [|split; [|split; [apply RO_laws|apply RO_sqrt]]].
  1,2: split; [reflexivity|]; split; [split; [reflexivity|intros [|[|i]] Hi; [reflexivity|reflexivity|lia]]|];
    split; [split; [reflexivity|intros [|[|i]] Hi; [reflexivity|reflexivity|lia]]|];
    intros j _; apply R_ltb_false; Lra.lra.
Qed.

(** ** C08: numbering and iteration *)

(** iterate_cluster calls [pre] and [post] in the order of the depth-first walk
    of ClusterSpec, for all callbacks and all states they work on. *)
Theorem C08_iterate_cluster {K : ofops} {S : Type} (pre post : cluster K -> nat -> S -> res S) t n (s : S) :
  desc_ok t ->
  iterate_cluster (Some pre) (Some post) t n s =
  rfold (fun v s => match v with Enter m c => pre c m s | Leave m c => post c m s end) (walk t n) s.
Proof.
  intros D. rewrite iterate_walk by exact D. revert s. induction (walk t n) as [|v l IH]; intros s; [reflexivity|].
  cbn [rfold]. destruct v; cbn [on_visit call].
  - destruct (pre t0 n0 s); cbn [rbind]; [apply IH|reflexivity].
  - destruct (post t0 n0 s); cbn [rbind]; [apply IH|reflexivity].
Qed.

(** The same with recording callbacks: the trace of the calls is the walk. *)
Theorem C08_iterate_trace {K : ofops} (t : cluster K) n : desc_ok t ->
  iterate_cluster (Some (fun c m s => Ok (s ++ [Enter m c]))) (Some (fun c m s => Ok (s ++ [Leave m c]))) t n [] =
  Ok (walk t n).
Proof.
  intros D. rewrite C08_iterate_cluster by exact D.
  assert (H : forall l s, rfold (fun v s => match v with
    Enter m c => Ok (s ++ [Enter m c]) | Leave m c => Ok (s ++ [Leave m c]) end) l s = Ok (s ++ l : list (visit K))).
  { induction l as [|v l IH]; intros s; cbn [rfold]; [rewrite app_nil_r; reflexivity|].
    destruct v; cbn [rbind]; rewrite IH, <- app_assoc; reflexivity. }
  apply (H (walk t n) []).
Qed.

(** Every cluster is entered and left exactly once, the numbers are
    [n .. n+desc-1] in depth-first order, and all visits of the descendants of
    a cluster lie between its own two visits. *)
Theorem C08_walk {K : ofops} (t : cluster K) n : desc_ok t ->
  c_desc t = Some (length (nodes t)) /\
  entered (walk t n) = combine (seq n (length (nodes t))) (nodes t) /\
  Permutation (left_at (walk t n)) (entered (walk t n)) /\
  (forall i s, nth_error (nodes t) i = Some s -> exists l1 l2 l3,
     walk t n = l1 ++ Enter (n + i) s :: l2 ++ Leave (n + i) s :: l3 /\
     entered l2 = combine (seq (n + i + 1) (length (nodes s) - 1)) (tl (nodes s))).
Proof.
  intros D. split; [apply D, nodes_refl|]. split; [apply entered_walk|]. split; [apply left_walk|].
  intros i s H. destruct (walk_nested t n i s H) as (l1 & l2 & E).
  rewrite (walk_eq s) in E. exists l1, (walks (c_sons s) (n + i + 1)), l2. split.
  - rewrite E. cbn [app]. rewrite <- app_assoc. reflexivity.
  - pose proof (entered_walk s (n + i)) as W. rewrite walk_eq, entered_cons, entered_app, entered_one, app_nil_r in W.
    rewrite nodes_eq in W |- *. cbn [length seq combine tl] in W |- *. injection W as W.
    rewrite Nat.sub_succ, Nat.sub_0_r, Nat.add_1_r, <- Nat.add_1_r, W, Nat.add_1_r. reflexivity.
Qed.

Lemma nth_error_Some_lt {A} (l : list A) i x : nth_error l i = Some x -> i < length l.
Proof. intros H. apply nth_error_Some. rewrite H. discriminate. Qed.

(** enumerate_cluster maps each number to its cluster. *)
Theorem C08_enumerate_cluster {K : ofops} (t : cluster K) : desc_ok t ->
  exists tn, enumerate_cluster t = Ok tn /\ length tn = length (nodes t) /\
    forall i s, In (i, s) (entered (walk t 0)) <-> nth_error tn i = Some (Some s).
Proof.
  intros D. pose proof (rok_enumerate_cluster t D) as H. apply rok_inv in H as (tn & E & [A1 A2]).
  exists tn. split; [exact E|]. split; [exact A1|]. intros i s. rewrite entered_walk.
  assert (C : In (i, s) (combine (seq 0 (length (nodes t))) (nodes t)) <-> nth_error (nodes t) i = Some s).
  { generalize (nodes t) as l. intros l. split.
    - intros Hi. apply In_nth_error in Hi as [k Hk].
      assert (Hl : k < length l). { apply nth_error_Some_lt in Hk. rewrite combine_length, seq_length in Hk. lia. }
      pose proof (nth_error_nth (combine (seq 0 (length l)) l) k (0, s) Hk) as N.
      rewrite combine_nth in N by apply seq_length. rewrite seq_nth in N by exact Hl. injection N as <- <-.
      apply nth_error_nth'. exact Hl.
    - intros Hi. pose proof (nth_error_Some_lt _ _ _ Hi) as Hl.
      rewrite <- (nth_error_nth _ _ s Hi).
      replace (i, nth i l s) with (nth i (combine (seq 0 (length l)) l) (0, s)).
      + apply nth_In. rewrite combine_length, seq_length. lia.
      + rewrite combine_nth by apply seq_length. rewrite seq_nth by exact Hl. reflexivity. }
  rewrite C. destruct (lt_dec i (length (nodes t))) as [Hl|Hl].
  - rewrite (A2 i Hl). rewrite (nth_error_nth' (nodes t) t Hl). split; congruence.
  - assert (N1 : nth_error (nodes t) i = None) by (apply nth_error_None; lia).
    assert (N2 : nth_error tn i = None) by (apply nth_error_None; lia).
    rewrite N1, N2. split; discriminate.
Qed.

(** getdepth_cluster and getmindepth_cluster: the largest and smallest distance
    of a leaf from the root. *)
Theorem C08_depth {K : ofops} (t : cluster K) :
  (In (getdepth t) (levels t) /\ forall l, In l (levels t) -> l <= getdepth t) /\
  (In (getmindepth t) (levels t) /\ forall l, In l (levels t) -> getmindepth t <= l).
Proof. split; [apply getdepth_levels|apply getmindepth_levels]. Qed.

(** ** C43: restructuring *)
Definition restructuring {K : ofops} (t t' : cluster K) : Prop :=
  restructured t t' /\
  forall f, flat_map (indices f) (leaves t') = flat_map (indices f) (leaves t).

Lemma restructured_leaves {K : ofops} (t t' : cluster K) : partition_tree t -> restructured t t' -> restructuring t t'.
Proof.
  intros P R. split; [exact R|]. intros f. rewrite !leaves_indices by (assumption || apply R).
  destruct R as [(E1 & E2 & _) _ _ _ _]. unfold indices. rewrite E1, E2. reflexivity.
Qed.

Section Restructure.
Context {K : ofops} (t : cluster K) (P : partition_tree t) (B : boxes_ok t).

(** All leaves are at least at the requested depth. *)
Theorem C43_extend depth : desc_ok t ->
  rok (extend_cluster t depth) (fun t' => restructuring t t' /\
    getdepth t' = Nat.max (getdepth t) depth /\ getmindepth t' = Nat.max (getmindepth t) depth).
Proof.
  intros D. eapply rok_conseq; [apply rok_extend; assumption|]. intros t' [R [E1 E2]].
  split; [apply restructured_leaves; assumption|]. split; assumption.
Qed.

(** No leaf is deeper than the requested depth. *)
Theorem C43_cut depth :
  rok (cut_cluster t depth) (fun t' => restructuring t t' /\
    getdepth t' = Nat.min (getdepth t) depth /\ getmindepth t' = Nat.min (getmindepth t) depth).
Proof.
  eapply rok_conseq; [apply rok_cut; assumption|]. intros t' [R [E1 E2]].
  split; [apply restructured_leaves; assumption|]. split; assumption.
Qed.

(** All leaves are at the requested depth. *)
Theorem C43_balance depth :
  rok (balance_cluster t depth) (fun t' => restructuring t t' /\ forall l, In l (levels t') -> l = depth).
Proof.
  eapply rok_conseq; [apply rok_balance; assumption|]. intros t' [R [E1 E2]].
  split; [apply restructured_leaves; assumption|]. intros l Hl.
  pose proof (proj2 (getdepth_levels t') l Hl). pose proof (proj2 (getmindepth_levels t') l Hl). lia.
Qed.

(** Exactly the clusters with a son of less than [m] indices become leaves. *)
Theorem C43_coarsen m :
  rok (coarsen_cluster t m) (fun t' => restructuring t t' /\
    forall s', In s' (nodes t') -> exists s, In s (nodes t) /\ same_extent s s' /\
      (c_sons s' = [] <-> c_sons s = [] \/ exists c, In c (c_sons s) /\ c_size c < m) /\
      (c_sons s' <> [] -> Forall2 same_extent (c_sons s) (c_sons s'))).
Proof.
  eapply rok_conseq; [apply rok_coarsen; assumption|]. intros t' [R C].
  split; [apply restructured_leaves; assumption|exact C].
Qed.
End Restructure.

(** A tree with three leaves on levels 1, 2, 2 meets the hypotheses of C08 and C43. *)
Definition xb : arr QcO := aof [qo 0].
Definition xleaf (off size : nat) : cluster QcO := Cl (K:=QcO) size off [] 1 xb xb (Some 1) 0.
Definition xtree : cluster QcO :=
  Cl (K:=QcO) 6 3 [xleaf 3 2; Cl (K:=QcO) 4 5 [xleaf 5 1; xleaf 6 3] 1 xb xb (Some 3) 0] 1 xb xb (Some 5) 0.
Example xtree_ok : partition_tree xtree /\ boxes_ok xtree /\ desc_ok xtree.
Proof.
  assert (N : nodes xtree = [xtree; xleaf 3 2; Cl (K:=QcO) 4 5 [xleaf 5 1; xleaf 6 3] 1 xb xb (Some 3) 0; xleaf 5 1; xleaf 6 3])
    by reflexivity.
  split; [|split]; intros s Hs; rewrite N in Hs; cbn [In] in Hs;
    destruct Hs as [<-|[<-|[<-|[<-|[<-|[]]]]]].
  1-5: cbn; split; [lia|]; intros H; repeat split; try lia; try (contradiction H; reflexivity).
  1-5: exists (fun _ => qo 0), (fun _ => qo 0); split; split; try reflexivity; intros [|i] Hi; [reflexivity|cbn in Hi; lia|reflexivity|cbn in Hi; lia].
  1-5: reflexivity.
Qed.
Definition xlevels (r : res (cluster QcO)) : list (nat * nat) :=
  match r with Ok t => combine (levels t) (map c_size (leaves t)) | Err _ => [] end.
Example xtree_restructure :
  map xlevels [extend_cluster xtree 2; cut_cluster xtree 1; balance_cluster xtree 2; balance_cluster xtree 3; coarsen_cluster xtree 2]
  = [[(2, 2); (2, 1); (2, 3)]; [(1, 2); (1, 4)]; [(2, 2); (2, 1); (2, 3)]; [(3, 2); (3, 1); (3, 3)]; [(1, 2); (1, 4)]].
Proof. vm_compute. reflexivity. Qed.

Print Assumptions C04_build_cluster.
Print Assumptions C04_leaves.
Print Assumptions C04_leaf_size.
Print Assumptions C05_adaptive_terminates.
Print Assumptions C05_regular_terminates.
Print Assumptions C05_simsub_terminates.
Print Assumptions C05_coincident_points_refuted.
Print Assumptions C05_adaptive_rounding_refuted.
Print Assumptions C06_support_bbox.
Print Assumptions C06_point_bbox.
Print Assumptions C06_update_bbox.
Print Assumptions C06_build_cluster.
Print Assumptions C07_diam_2.
Print Assumptions C07_diam_max.
Print Assumptions C07_dist_2.
Print Assumptions C07_dist_max.
Print Assumptions C07_dim_mismatch.
Print Assumptions C08_iterate_cluster.
Print Assumptions C08_iterate_trace.
Print Assumptions C08_walk.
Print Assumptions C08_enumerate_cluster.
Print Assumptions C08_depth.
Print Assumptions C43_extend.
Print Assumptions C43_cut.
Print Assumptions C43_balance.
Print Assumptions C43_coarsen.
