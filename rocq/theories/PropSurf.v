(** * C61: surface meshes

    Property: check_surface3d returns zero exactly for meshes whose numbers
    are in range and whose triangle sides are the edges between the corners.
    isclosed_surface3d and isoriented_surface3d decide whether every edge lies
    between two triangles and whether triangles that meet traverse their edge
    in opposite directions.  prepare_surface3d computes unit normal vectors
    and twice the area of the triangles, and translations do not change them.
    The regular refinement delivers a consistent mesh that consists of the old
    vertices and the midpoints of the edges, is closed or oriented exactly if
    the old one is, and whose triangles have the old normal vectors and a
    quarter of the area. *)
From Coq Require Import Arith Lia List Bool QArith Qcanon.
From Verif Require Import Fld Inst Ord OrdInst Prog Arr HmSpec Tri2d Tri2dSpec Tri2dP Tri2dP2
  Surf SurfSpec SurfP SurfP2 SurfP3 SurfP4 SurfP5 SurfP6.
Import ListNotations.
Local Open Scope nat_scope.

Theorem C61_check : forall (K : fops) (m : surface3d K) w, surf_is m w ->
  exists q, check_surface3d m = Ok q /\ (q = 0 <-> surf_checked w).
Proof. intros K m w Hm. apply run_check. exact Hm. Qed.
Print Assumptions C61_check.

Theorem C61_isclosed : forall (K : fops) (m : surface3d K) w, surf_is m w -> surf_checked w ->
  exists b, isclosed_surface3d m = Ok b /\ (b = true <-> closed w).
Proof. intros K m w Hm (_ & _ & HS & _). apply run_isclosed; assumption. Qed.
Print Assumptions C61_isclosed.

Theorem C61_isoriented : forall (K : fops) (m : surface3d K) w, surf_is m w -> surf_ok w ->
  exists b, isoriented_surface3d m = Ok b /\ (b = true <-> oriented w).
Proof. intros K m w Hm Hw. apply run_isoriented; assumption. Qed.
Print Assumptions C61_isoriented.

(** For closed surfaces: every edge is traversed once in each direction. *)
Theorem C61_closed_oriented : forall (K : fops) (w : sview K), surf_ok w -> closed w ->
  (oriented w <-> forall k, k < vE w ->
     passes w k (ve w k 0) (ve w k 1) = 1 /\ passes w k (ve w k 1) (ve w k 0) = 1).
Proof.
  intros K w Hw Hc. split; intros H k Hk.
  - pose proof (Hc k Hk) as U. specialize (H k Hk ltac:(lia)). rewrite (uses_passes w Hw) in U. lia.
  - intros _. destruct (H k Hk) as [-> ->]. lia.
Qed.
Print Assumptions C61_closed_oriented.

Theorem C61_prepare : forall (K : ofops), ofield_laws K -> forall sq : K -> K, sqrt_laws sq ->
  forall (m : surface3d K) w, surf_is m w -> surf_checked w ->
  exists r n g, prepare_surface3d sq m = Ok r /\ surf_is r w /\ has_normals r (vT w) n g /\ normals_fit w n g.
Proof.
  intros K L sq S m w Hm (_ & HT & _).
  destruct (rok_inv _ _ (run_prepare sq m w Hm HT)) as (r & E & H1 & H2).
  exists r, (unit_n sq w), (gram sq w). split; [exact E|]. split; [exact H1|]. split; [exact H2|].
  apply normals_prepared; assumption.
Qed.
Print Assumptions C61_prepare.

Theorem C61_translate : forall (K : fops), field_laws K -> forall (sq : K -> K) (m : surface3d K) w d df,
  surf_is m w -> surf_checked w -> aval d 3 df ->
  exists r r0, translate_surface3d sq m d = Ok r /\ prepare_surface3d sq m = Ok r0 /\
    surf_is r (SV (vV w) (vE w) (vT w) (fun i j => (vx w i j + df j)%F) (ve w) (vt w) (vs w)) /\
    s3_n r = s3_n r0 /\ s3_g r = s3_g r0.
Proof.
  intros K L sq m w d df Hm (_ & HT & _) Hd.
  destruct (rok_inv _ _ (run_prepare sq m w Hm HT)) as (r0 & E0 & _ & N0 & G0).
  destruct (rok_inv _ _ (run_translate sq m w d df Hm Hd HT)) as (r & E & H & N & G).
  exists r, r0. split; [exact E|]. split; [exact E0|]. split; [exact H|].
  assert (X : forall i, len2 (moved w (fun i j => (vx w i j + df j)%F)) i = len2 w i)
    by (intros i; unfold len2; rewrite !(cross_moved L); reflexivity).
  split; eapply aval_inj; [exact N| |exact G|].
  - eapply aval_ext; [exact N0|]. intros p _. unfold unit_n. rewrite X, (cross_moved L). reflexivity.
  - eapply aval_ext; [exact G0|]. intros p _. unfold gram. rewrite X. reflexivity.
Qed.
Print Assumptions C61_translate.

Theorem C61_refine : forall (K : ofops), ofield_laws K -> forall sq : K -> K, sqrt_laws sq ->
  forall (m : surface3d K) w, surf_is m w -> surf_ok w ->
  exists r w' n' g', refine_red_surface3d sq m = Ok r /\ surf_is r w' /\ red_refined w w' /\ surf_ok w' /\
    (closed w' <-> closed w) /\ (oriented w' <-> oriented w) /\
    has_normals r (vT w') n' g' /\ normals_fit w' n' g' /\
    (forall t q c, t < vT w -> q < 4 -> cross w t c = four (cross w' (4 * t + q) c)) /\
    (forall n g, normals_fit w n g -> forall t q, t < vT w -> q < 4 -> ~ degenerate w t ->
       g t = four (g' (4 * t + q)) /\ forall c, c < 3 -> n' (4 * t + q) c = n t c).
Proof.
  intros K L sq S m w Hm Hw.
  destruct (rok_inv _ _ (run_refine sq m w Hm Hw (ft_lt w Hw))) as (r & E & H1 & H2).
  pose proof (normals_prepared L sq (fine w) S) as HF.
  exists r, (fine w), (unit_n sq (fine w)), (gram sq (fine w)).
  split; [exact E|]. split; [exact H1|].
  split; [apply (fine_refined (ol_field K L) (two_ne L)); exact Hw|].
  split; [apply fine_ok; exact Hw|]. split; [apply fine_closed; exact Hw|]. split; [apply fine_oriented; exact Hw|].
  split; [exact H2|]. split; [exact HF|]. split.
  - intros t q c Ht Hq. apply (fine_cross (ol_field K L) (two_ne L)); assumption.
  - intros n g HN t q Ht Hq Hd. apply (fine_normals L w n g); assumption.
Qed.
Print Assumptions C61_refine.

(** Merging copies three entries of each edge, although edges have only two:
    it reads past the end of the array whenever the first mesh has edges. *)
Theorem C61_merge_refuted : forall (K : fops) (m1 m2 : surface3d K) w1 w2,
  surf_is m1 w1 -> surf_is m2 w2 -> 0 < vE w1 -> merge_surface3d m1 m2 = Err EBounds.
Proof. intros K m1 m2 w1 w2 H1 H2 HE. eapply merge_overflow; eassumption. Qed.
Print Assumptions C61_merge_refuted.

(** What scaling does achieve: all coordinates are multiplied by the same
    positive factor and shifted by the same amount, the result is in no
    direction larger than the box, and in one direction its interval is that of
    the box.  Missing: that it lies in the box in the other directions, which
    is refuted below. *)
Theorem C61_scale_partial : forall (K : ofops), ofield_laws K -> forall sq : K -> K, sqrt_laws sq -> forall (big : K)
    (m : surface3d K) w a b af bf,
  surf_is m w -> surf_checked w -> aval a 3 af -> aval b 3 bf ->
  (forall j, j < 3 -> flt (af j) (bf j) = true) ->
  (forall i j, i < vV w -> j < 3 -> fle (fopp big) (vx w i j) /\ fle (vx w i j) big) ->
  (exists i i' j, i < vV w /\ i' < vV w /\ j < 3 /\ vx w i j <> vx w i' j) ->
  exists r w' alpha beta n g, scale_surface3d sq big m a b = Ok r /\ surf_is r w' /\
    has_normals r (vT w') n g /\ normals_fit w' n g /\
    w' = SV (vV w) (vE w) (vT w) (fun i j => (alpha + beta * vx w i j)%F) (ve w) (vt w) (vs w) /\
    flt f0 beta = true /\
    (forall i i' j, i < vV w -> i' < vV w -> j < 3 -> fle (vx w' i j - vx w' i' j)%F (bf j - af j)%F) /\
    exists d, d < 3 /\ (forall i, i < vV w -> fle (af d) (vx w' i d) /\ fle (vx w' i d) (bf d)) /\
      (exists i, i < vV w /\ vx w' i d = af d) /\ (exists i, i < vV w /\ vx w' i d = bf d).
Proof.
  intros K L sq S big m w a b af bf Hm (_ & HT & _) Ha Hb Hab Hbig (i0 & i1 & j0 & Hi0 & Hi1 & Hj0 & Hne).
  destruct (run_scale sq big m w a b af bf Hm Ha Hb HT) as (al & be & r & E & (H & HN) & mn & mx & Hmm & Hbe & Hal).
  pose proof Hm as (EV & EE & ET & Tx & _).
  assert (M : forall j, j < 3 -> (forall i, i < vV w -> fle (mn j) (vx w i j) /\ fle (vx w i j) (mx j)) /\
    (exists i, i < vV w /\ vx w i j = mn j) /\ (exists i, i < vV w /\ vx w i j = mx j)).
  { intros j Hj. eapply (minmax_ok L big); [exact Tx|exact Hj|lia| |apply Hmm; exact Hj]. intros i Hi. apply Hbig; assumption. }
  set (d := sdir (fun j => (mx j - mn j) / (bf j - af j))%F) in *.
  destruct (sdir_max L (fun j => (mx j - mn j) / (bf j - af j))%F) as [Hd HQ]. fold d in Hd, HQ.
  assert (LE : forall j, j < 3 -> fle (mn j) (mx j)).
  { intros j Hj. destruct (M j Hj) as [A _]. eapply (ole_trans (ofield_order L)); apply (A i0 Hi0). }
  destruct (factor_ok L mn mx af bf d Hd Hab LE) as (B0 & B1 & B2).
  - exists j0. split; [exact Hj0|]. destruct (fle_cases L _ _ (LE j0 Hj0)) as [Eq|Q]; [|exact Q]. exfalso. apply Hne.
    destruct (M j0 Hj0) as [A _]. destruct (A i0 Hi0) as [A1 A2]. destruct (A i1 Hi1) as [A3 A4]. rewrite <- Eq in A2, A4.
    transitivity (mn j0); [|symmetry]; apply (fle_antisym L); assumption.
  - exact HQ.
  - rewrite <- Hbe in B0, B1, B2.
    exists r. eexists. exists al, be. eexists. eexists. split; [exact E|]. split; [exact H|]. split; [exact HN|].
    split; [apply (normals_prepared L); exact S|]. split; [reflexivity|]. split; [exact B0|].
    cbn [moved vx].
    split.
    + intros i i' j Hi Hi' Hj. destruct (M j Hj) as [A _]. apply (scale_size L _ _ _ _ (mn j) (mx j)); try assumption; try (apply A; assumption).
      apply (B2 j Hj).
    + exists d. split; [exact Hd|]. destruct (M d Hd) as (A & (i2 & Hi2 & E2) & (i3 & Hi3 & E3)).
      split; [|split].
      * intros i Hi. destruct (A i Hi) as [A1 A2]. rewrite Hal. apply (scale_in L _ (mn d) (mx d)); assumption.
      * exists i2. split; [exact Hi2|]. rewrite E2, Hal. apply (scale_low L).
      * exists i3. split; [exact Hi3|]. rewrite E3, Hal. apply (scale_high L). exact B1.
Qed.
Print Assumptions C61_scale_partial.

(** Scaling shifts all coordinates by the same amount: if the intervals of the
    target box in two directions do not meet, a mesh with a vertex that has
    equal coordinates in these directions does not end up in the box. *)
Theorem C61_scale_refuted : forall (K : ofops), ofield_laws K -> forall (sq : K -> K) (big : K)
    (m : surface3d K) w a b af bf i,
  surf_is m w -> surf_checked w -> aval a 3 af -> aval b 3 bf ->
  i < vV w -> vx w i 0 = vx w i 1 -> flt (bf 0) (af 1) = true ->
  exists r w', scale_surface3d sq big m a b = Ok r /\ surf_is r w' /\ ~ in_box w' af bf.
Proof.
  intros K L sq big m w a b af bf i Hm (_ & HT & _) Ha Hb Hi Hx Hab.
  destruct (run_scale sq big m w a b af bf Hm Ha Hb HT) as (al & be & r & E & [H _] & _).
  exists r. eexists. split; [exact E|]. split; [exact H|].
  intros B. pose proof (proj2 (B i 0 Hi ltac:(lia))) as B0. pose proof (proj1 (B i 1 Hi ltac:(lia))) as B1.
  cbn [moved vx] in B0, B1. rewrite <- Hx in B1.
  pose proof (ole_trans (ofield_order L) _ _ _ B1 B0) as C. unfold fle in C. congruence.
Qed.
Print Assumptions C61_scale_refuted.

(** The surface of a tetrahedron meets the hypotheses; the same mesh with one
    reversed triangle is consistent, but not oriented. *)
Definition tet_x : list QcO := [f0; f0; f0;  f1; f0; f0;  f0; f1; f0;  f0; f0; f1].
Definition tet_e : list nat := [0;1; 0;2; 0;3; 1;2; 1;3; 2;3].
Definition tet_t (flip : bool) : list nat :=
  (if flip then [0;1;2] else [0;2;1]) ++ [0;1;3;  0;3;2;  1;2;3].
Definition tet_s (flip : bool) : list nat :=
  (if flip then [3;1;0] else [3;0;1]) ++ [4;2;0;  5;1;2;  5;4;3].
Definition tet_m (flip : bool) : surface3d QcO :=
  S3 4 6 4 (aof tet_x) (aof tet_e) (aof (tet_t flip)) (aof (tet_s flip)) (anew 12) (anew 4).
Definition tet_w (flip : bool) : sview QcO :=
  SV 4 6 4 (fun i j => nth (3 * i + j) tet_x f0) (fun i j => nth (2 * i + j) tet_e 0)
     (fun i j => nth (3 * i + j) (tet_t flip) 0) (fun i j => nth (3 * i + j) (tet_s flip) 0).

Lemma tet_is flip : surf_is (tet_m flip) (tet_w flip).
Proof.
  unfold surf_is, table; cbn [tet_m tet_w s3_vertices s3_edges s3_triangles s3_x s3_e s3_t s3_s s3_n s3_g vV vE vT vx ve vt vs].
  assert (D3 : forall p, 3 * (p / 3) + p mod 3 = p) by (intros p; symmetry; apply Nat.div_mod; lia).
  assert (D2 : forall p, 2 * (p / 2) + p mod 2 = p) by (intros p; symmetry; apply Nat.div_mod; lia).
  refine (conj eq_refl (conj eq_refl (conj eq_refl (conj _ (conj _ (conj _ (conj _ (conj eq_refl eq_refl)))))))).
  - eapply aval_ext; [apply (aof_val tet_x f0)|]. intros p _. cbv beta. rewrite D3. reflexivity.
  - eapply aval_ext; [apply (aof_val tet_e 0)|]. intros p _. cbv beta. rewrite D2. reflexivity.
  - replace (3 * 4) with (length (tet_t flip)) by (destruct flip; reflexivity).
    eapply aval_ext; [apply (aof_val (tet_t flip) 0)|]. intros p _. cbv beta. rewrite D3. reflexivity.
  - replace (3 * 4) with (length (tet_s flip)) by (destruct flip; reflexivity).
    eapply aval_ext; [apply (aof_val (tet_s flip) 0)|]. intros p _. cbv beta. rewrite D3. reflexivity.
Qed.

Example C61_hyps : forall flip, surf_is (tet_m flip) (tet_w flip) /\ surf_ok (tet_w flip) /\ closed (tet_w flip).
Proof.
  intros flip. split; [apply tet_is|].
  assert (C : surf_checked (tet_w flip)).
  { destruct (C61_check _ _ _ (tet_is flip)) as (q & E & H). apply H.
    assert (Q : check_surface3d (tet_m flip) = Ok 0) by (destruct flip; vm_compute; reflexivity). congruence. }
  split; [split; [exact C|]|].
  - intros i Hi. cbn [tet_w vT vt] in *. destruct flip; destruct i as [|[|[|[|i]]]]; cbn; lia.
  - destruct (C61_isclosed _ _ _ (tet_is flip) C) as (b & E & H). apply H.
    assert (Q : isclosed_surface3d (tet_m flip) = Ok true) by (destruct flip; vm_compute; reflexivity). congruence.
Qed.

Example C61_values : isoriented_surface3d (tet_m false) = Ok true /\ isoriented_surface3d (tet_m true) = Ok false.
Proof. split; vm_compute; reflexivity. Qed.

(** No triangle of the tetrahedron is degenerate. *)
Example C61_nondegenerate : forall i, i < 4 -> ~ degenerate (tet_w false) i.
Proof.
  intros i Hi D. destruct i as [|[|[|[|i]]]]; try lia.
  - specialize (D 2 ltac:(lia)). vm_compute in D. discriminate D.
  - specialize (D 1 ltac:(lia)). vm_compute in D. discriminate D.
  - specialize (D 0 ltac:(lia)). vm_compute in D. discriminate D.
  - specialize (D 0 ltac:(lia)). vm_compute in D. discriminate D.
Qed.

(** The hypotheses on the box in [C61_scale_refuted]. *)
Example C61_scale_hyps : let af := fun j => if j =? 1 then f2 else (f0 : QcO) in
  let bf := fun j => if j =? 1 then (f2 + f1)%F else (f1 : QcO) in
  aval (aof [af 0; af 1; af 2]) 3 af /\ aval (aof [bf 0; bf 1; bf 2]) 3 bf /\
  flt (bf 0) (af 1) = true /\ vx (tet_w false) 0 0 = vx (tet_w false) 0 1.
Proof.
  cbv zeta. split; [|split; [|split]].
  - split; [reflexivity|]. intros [|[|[|i]]] Hi; try lia; reflexivity.
  - split; [reflexivity|]. intros [|[|[|i]]] Hi; try lia; reflexivity.
  - vm_compute. reflexivity.
  - reflexivity.
Qed.

(** The hypotheses on the vertices in [C61_scale_partial]. *)
Example C61_scale_partial_hyps :
  (forall i j, i < 4 -> j < 3 -> fle (fopp f1) (vx (tet_w false) i j) /\ fle (vx (tet_w false) i j) f1) /\
  vx (tet_w false) 0 0 <> vx (tet_w false) 1 0.
Proof.
  split.
  - intros [|[|[|[|i]]]] [|[|[|j]]] Hi Hj; try lia; split; reflexivity.
  - intros H. vm_compute in H. discriminate H.
Qed.
