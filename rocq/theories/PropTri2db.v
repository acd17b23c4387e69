(** * C59: construction of triangular meshes from lists of triangles

    Property: a mesh builder that is given the coordinates of the vertices and
    triangles with three different corners each delivers a mesh exactly if no
    edge belongs to more than two triangles.  The mesh is consistent, its j-th
    triangle has the corners given for it with the edges numbered so that each
    is opposite its corner, every edge exists once, the boundary consists of
    the edges that belong to one triangle, and no triangle lies to the right
    of its boundary edges.  Orienting the boundary of a given consistent mesh
    reverses edges that are not inner edges and changes nothing else. *)
From Coq Require Import Arith Lia List Bool QArith Qcanon.
From Verif Require Import Fld Inst Ord OrdInst Prog Arr HmSpec Tri2d Tri2dSpec Tri2dP Tri2dP2 Tri2dP3 Tri2dP4 Tri2dP5
  Tri2db Tri2dbSpec Tri2dbP Tri2dbP2 Tri2dbP3 Tri2dbP4.
Import ListNotations.
Local Open Scope nat_scope.

Theorem C59_fixnormals : forall (G : ofops), ofield_laws G ->
  forall (m : tri2d G) w, mesh_is m w -> mesh_ok w -> exists r w',
    fixnormals_tri2d m = Ok r /\ mesh_is r w' /\ mesh_ok w' /\ reversed w w' /\ ccw_boundary w' /\
    forall j v0 v1 v2, j < mT w -> corners w j v0 v1 v2 -> corners w' j v0 v1 v2.
Proof.
  intros G L m w Hm Hok. destruct (rok_inv _ _ (run_fix L m w Hm Hok)) as (r & E & w' & H).
  exists r, w'. split; [exact E|exact H].
Qed.
Print Assumptions C59_fixnormals.

Theorem C59_build : forall (G : ofops), ofield_laws G ->
  forall (x : list (G * G)) tris, tris_ok (length x) tris -> exists r w,
    build_tri2d x tris = Ok r /\ mesh_is r w /\ mesh_ok w /\ built x tris w /\ ccw_boundary w.
Proof.
  intros G L x tris HT. destruct (rok_inv _ _ (run_build L x tris HT)) as (r & E & w & H).
  exists r, w. split; [exact E|exact H].
Qed.
Print Assumptions C59_build.

(** An edge with more than two triangles is the only thing that is refused. *)
Theorem C59_build_iff : forall (G : ofops), ofield_laws G ->
  forall (x : list (G * G)) tris,
  (forall v0 v1 v2, In (v0, v1, v2) tris ->
     v0 < length x /\ v1 < length x /\ v2 < length x /\ v0 <> v1 /\ v1 <> v2 /\ v2 <> v0) ->
  (exists r, build_tri2d x tris = Ok r) <-> (forall a b, a <> b -> sharing tris a b <= 2).
Proof.
  intros G L x tris Hc. split.
  - intros [r E]. eapply build_only; eassumption.
  - intros Hs. destruct (C59_build G L x tris (conj Hc Hs)) as (r & w & E & _). exists r. exact E.
Qed.
Print Assumptions C59_build_iff.

(** What the builder delivers can be refined as often as desired. *)
Theorem C59_build_refine : forall (G : ofops), ofield_laws G ->
  forall (x : list (G * G)) tris, tris_ok (length x) tris -> exists r w r' o w',
    build_tri2d x tris = Ok r /\ mesh_is r w /\ built x tris w /\
    refine_tri2d false r = Ok (r', o) /\ mesh_is r' w' /\ mesh_ok w' /\ refined w w'.
Proof.
  intros G L x tris HT. destruct (C59_build G L x tris HT) as (r & w & E & A & B & C & _).
  assert (H2 : (1 + 1)%F <> @f0 G) by (intros E2; apply (flt_ne L _ _ (f2_pos L)); symmetry; exact E2).
  destruct (run_refine r w A B false) as (r' & o & E' & Hr & _).
  exists r, w, r', o, (fine w). split; [exact E|]. split; [exact A|]. split; [exact C|]. split; [exact E'|].
  split; [exact Hr|]. split; [apply fine_ok; exact B|]. apply fine_refined; first [apply L|exact H2|exact B|assumption].
Qed.
Print Assumptions C59_build_refine.

(** ** The hypotheses can be met: the unit square with its centre, four triangles *)
Definition sq_x : list (QcO * QcO) :=
  [(0%Qc, 0%Qc); (1%Qc, 0%Qc); (1%Qc, 1%Qc); (0%Qc, 1%Qc); (Q2Qc (1 # 2), Q2Qc (1 # 2))].
Definition sq_t : list (nat * nat * nat) := [(0, 1, 4); (2, 1, 4); (2, 3, 4); (4, 3, 0)].

Example C59_hyps : ofield_laws QcO /\ tris_ok (length sq_x) sq_t /\ sharing sq_t 0 1 = 1 /\ sharing sq_t 4 1 = 2 /\
  exists r w, build_tri2d sq_x sq_t = Ok r /\ mesh_is r w /\ mesh_ok w.
Proof.
  assert (HT : tris_ok (length sq_x) sq_t).
  { split.
    - intros v0 v1 v2 H. cbn in H. cbn [length sq_x].
      repeat destruct H as [H|H]; try (injection H as <- <- <-; lia). destruct H.
    - intros a b Hab.
      do 5 (destruct a as [|a]; [do 5 (destruct b as [|b]; [try congruence; vm_compute; lia|]); vm_compute; lia|]).
      vm_compute; lia. }
  split; [exact QcO_laws|]. split; [exact HT|]. split; [reflexivity|]. split; [reflexivity|].
  destruct (C59_build QcO QcO_laws sq_x sq_t HT) as (r & w & E & A & B & _). exists r, w. auto.
Qed.

(** Three triangles at an edge are refused. *)
Example C59_three : ~ exists r, build_tri2d sq_x [(0, 1, 2); (0, 1, 3); (0, 1, 4)] = Ok r.
Proof.
  rewrite (C59_build_iff QcO QcO_laws).
  - intros H. specialize (H 0 1 ltac:(lia)). vm_compute in H. lia.
  - intros v0 v1 v2 H. cbn in H. cbn [length sq_x].
    repeat destruct H as [H|H]; try (injection H as <- <- <-; lia). destruct H.
Qed.
