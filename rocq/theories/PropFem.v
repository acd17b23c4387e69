(** * C62: piecewise linear finite elements on triangular meshes

    Property: the vertices of a mesh that are not on the boundary, and those
    that are, are numbered consecutively.  The matrices built for a mesh store
    exactly the pairs of vertices that share a triangle.  The assembled Laplace
    matrix contains the integrals of the products of the gradients of the hat
    functions, the mass matrix the integrals of the products of the hat
    functions, the load vector the integrals of the hat functions times a given
    function by the midpoint rule, and the vector of boundary values the
    values of a given function; entries that were there before are kept and
    added to.  The prolongation matrix contains the values of the coarse hat
    functions in the vertices of the fine mesh. *)
From Coq Require Import Arith Lia List Bool Ring QArith Qcanon.
From Verif Require Import Fld Ord Inst OrdInst Prog Arr HmSpec Sparse SparseP PropSparse Tri2d Tri2dSpec Tri2dP Tri2dP2 Tri2dP3 Tri2dP5
  Fem FemSpec FemP FemP2 FemP3 FemP4 FemP5 FemP6.
Import ListNotations.
Local Open Scope nat_scope.

Theorem C62_new : forall (K : ofops) (m : tri2d K) w, mesh_is m w ->
  exists dc num, new_tri2dp1 m = Ok dc /\ p1_t2 dc = m /\ space_is dc w num.
Proof.
  intros K m w Hm. destruct (run_new m w Hm) as (dc & E & Em & H). exists dc. eexists. split; [exact E|]. split; [exact Em|exact H].
Qed.
Print Assumptions C62_new.

(** The positions that belong to two vertices of the same triangle. *)
Definition pairs {K : ofops} (w : mview K) (num : nat -> nat) (col : nat -> Prop) (r c : nat) : Prop :=
  exists u v, free w u /\ col v /\ together w u v /\ num u = r /\ num v = c.

Lemma near_pairs {K : ofops} (w : mview K) num fl (col : nat -> Prop) r c :
  (forall v, col v <-> isfree w v = fl) -> (near w num fl (mT w) r c <-> pairs w num col r c).
Proof.
  intros HC. split.
  - intros (j & u & v & Hj & Cu & Cv & Fu & Fv & Eu & Ev). exists u, v. split; [apply Nat.eqb_eq; exact Fu|].
    split; [apply HC; exact Fv|]. split; [exists j; auto|]. auto.
  - intros (u & v & Fu & Fv & (j & Hj & Cu & Cv) & Eu & Ev). exists j, u, v. split; [exact Hj|].
    split; [exact Cu|]. split; [exact Cv|]. split; [apply Nat.eqb_eq; exact Fu|]. split; [apply HC; exact Fv|]. auto.
Qed.
Lemma free_b {K : ofops} (w : mview K) v : free w v <-> isfree w v = true.
Proof. unfold free, isfree. symmetry. apply Nat.eqb_eq. Qed.
Lemma fix_b {K : ofops} (w : mview K) v : ~ free w v <-> isfree w v = false.
Proof. unfold free, isfree. symmetry. apply Nat.eqb_neq. Qed.

Theorem C62_build : forall (K : ofops), ofield_laws K -> forall (dc : tri2dp1 K) w num, space_is dc w num -> mesh_ok w ->
  0 < p1_ndof dc -> exists a, build_tri2dp1_sparsematrix dc = Ok a /\
    sparse_is a (p1_ndof dc) (p1_ndof dc) (pairs w num (free w)) (fun _ _ => f0).
Proof.
  intros K L dc w num Hs Hok Hn.
  destruct (rok_inv _ _ (run_build (fl_ring K (ol_field K L)) dc w num Hs Hok Hn)) as (a & E & H).
  exists a. split; [exact E|]. eapply sparse_is_ext; [exact H| |reflexivity]. intros i j _. apply near_pairs, free_b.
Qed.
Print Assumptions C62_build.

Theorem C62_build_interaction : forall (K : ofops), ofield_laws K -> forall (dc : tri2dp1 K) w num,
  space_is dc w num -> mesh_ok w -> 0 < p1_ndof dc -> 0 < p1_nfix dc ->
  exists a, build_tri2dp1_interaction_sparsematrix dc = Ok a /\
    sparse_is a (p1_ndof dc) (p1_nfix dc) (pairs w num (fun v => ~ free w v)) (fun _ _ => f0).
Proof.
  intros K L dc w num Hs Hok Hn Hf.
  destruct (rok_inv _ _ (run_build_interaction (fl_ring K (ol_field K L)) dc w num Hs Hok Hn Hf)) as (a & E & H).
  exists a. split; [exact E|]. eapply sparse_is_ext; [exact H| |reflexivity]. intros i j _. apply near_pairs, fix_b.
Qed.
Print Assumptions C62_build_interaction.

(** What assembling means: [add u v] is added to the entry of the free vertex
    [u] and the free vertex [v] of the matrix, and to the entry of [u] and
    the fixed vertex [v] of the interaction matrix, if there is one. *)
Definition assembled {K : ofops} (dc : tri2dp1 K) (w : mview K) (num : nat -> nat) (add : nat -> nat -> K)
    (A : smat K) (Af : option (smat K)) (P : nat -> nat -> Prop) (M : nat -> nat -> K)
    (Pf : nat -> nat -> Prop) (Mf : nat -> nat -> K) (run : res (smat K * option (smat K))) : Prop :=
  exists A' Af' M' Mf', run = Ok (A', Af') /\
    sparse_is A' (p1_ndof dc) (p1_ndof dc) P M' /\
    (forall u v, u < mV w -> v < mV w -> free w u -> free w v ->
       M' (num u) (num v) = (M (num u) (num v) + add u v)%F) /\
    (Af = None -> Af' = None) /\
    (Af <> None -> exists a, Af' = Some a /\ sparse_is a (p1_ndof dc) (p1_nfix dc) Pf Mf' /\
       forall u v, u < mV w -> v < mV w -> free w u -> ~ free w v ->
         Mf' (num u) (num v) = (Mf (num u) (num v) + add u v)%F).

(** The matrices that are passed: every pair of vertices of a triangle is
    stored, as in the matrices built above. *)
Definition ready {K : ofops} (dc : tri2dp1 K) (w : mview K) (num : nat -> nat)
    (A : smat K) (Af : option (smat K)) (P : nat -> nat -> Prop) (M : nat -> nat -> K)
    (Pf : nat -> nat -> Prop) (Mf : nat -> nat -> K) : Prop :=
  sparse_is A (p1_ndof dc) (p1_ndof dc) P M /\ (forall r c, pairs w num (free w) r c -> P r c) /\
  (forall a, Af = Some a -> sparse_is a (p1_ndof dc) (p1_nfix dc) Pf Mf /\
     (forall r c, pairs w num (fun v => ~ free w v) r c -> Pf r c)).

Lemma assembled_of {K : ofops} (L : ofield_laws K) (dc : tri2dp1 K) w num element F add A Af P M Pf Mf :
  space_is dc w num -> mesh_ok w ->
  (forall j xt, j < mT w -> local w j xt -> forall a b, a < 3 -> b < 3 ->
    element (mx w (at3 xt 0)) (mx w (at3 xt 1)) (mx w (at3 xt 2)) a b = F j (at3 xt a) (at3 xt b)) ->
  (forall j u v, j < mT w -> ~ corner w j u \/ ~ corner w j v -> F j u v = f0) ->
  (forall u v, sum (mT w) (fun j => F j u v) = add u v) ->
  ready dc w num A Af P M Pf Mf ->
  assembled dc w num add A Af P M Pf Mf (assemble_with element dc A Af).
Proof.
  intros Hs Hok HF HF0 Hadd (HA & HP & HAf).
  pose proof (run_assemble (fl_ring K (ol_field K L)) dc w num Hs Hok element F HF HF0 A Af P M Pf Mf HA) as R.
  assert (R1 : forall u v, isfree w u = true -> isfree w v = true -> together w u v -> P (num u) (num v)).
  { intros u v Fu Fv T. apply HP. exists u, v. rewrite !free_b. auto. }
  assert (R2 : forall a, Af = Some a -> sparse_is a (p1_ndof dc) (p1_nfix dc) Pf Mf) by (intros a Ea; apply (HAf a Ea)).
  assert (R3 : Af <> None -> forall u v, isfree w u = true -> isfree w v = false -> together w u v -> Pf (num u) (num v)).
  { intros N u v Fu Fv T. destruct Af as [a|]; [|congruence]. apply (proj2 (HAf a eq_refl)). exists u, v.
    rewrite free_b, fix_b. auto. }
  destruct (rok_inv _ _ (R R1 R2 R3)) as ([A' Af'] & E & (M' & H1 & H2) & H3).
  - cbn [fst snd] in *.
    assert (G : forall fl u v, isfree w v = fl -> add u v = sum (mT w) (fun j => F j u v)) by (intros; symmetry; apply Hadd).
    destruct Af' as [a'|].
    + destruct H3 as [Hsome (Mf' & H4 & H5)]. destruct Af as [a|]; [|discriminate].
      exists A', (Some a'), M', Mf'. split; [exact E|]. split; [exact H1|]. split.
      { intros u v Hu Hv Fu Fv. rewrite free_b in Fu, Fv. rewrite H2, Hadd by assumption. reflexivity. }
      split; [discriminate|]. intros _. exists a'. split; [reflexivity|]. split; [exact H4|].
      intros u v Hu Hv Fu Fv. rewrite free_b in Fu. rewrite fix_b in Fv. rewrite H5, Hadd by assumption. reflexivity.
    + destruct Af as [a|]; [discriminate|]. exists A', None, M', Mf. split; [exact E|]. split; [exact H1|]. split.
      { intros u v Hu Hv Fu Fv. rewrite free_b in Fu, Fv. rewrite H2, Hadd by assumption. reflexivity. }
      split; [reflexivity|congruence].
Qed.

(** Laplace: the integrals of the products of the gradients. *)
Theorem C62_laplace : forall (K : ofops), ofield_laws K -> forall (dc : tri2dp1 K) w num,
  space_is dc w num -> mesh_ok w -> nondegenerate w ->
  forall G area, hat_gradients w G -> areas w area ->
  forall A Af P M Pf Mf, ready dc w num A Af P M Pf Mf ->
  assembled dc w num (energy w G area) A Af P M Pf Mf (assemble_tri2dp1_laplace_sparsematrix dc A Af).
Proof.
  intros K L dc w num Hs Hok HN G area HG HA A Af P M Pf Mf HR.
  apply (assembled_of L dc w num laplace_element (Flap area G)); try assumption.
  - apply (lap_fits L w area HA G HG HN).
  - apply (lap_zero L w area G HG Hok).
  - intros u v. reflexivity.
Qed.
Print Assumptions C62_laplace.

(** Identity: the integrals of the products of the hat functions, by a
    quadrature rule that is exact for them. *)
Theorem C62_mass : forall (K : ofops), ofield_laws K -> forall (dc : tri2dp1 K) w num,
  space_is dc w num -> mesh_ok w ->
  forall area, areas w area ->
  forall A Af P M Pf Mf, ready dc w num A Af P M Pf Mf ->
  assembled dc w num (fun u v => midpoint_rule w area (fun e => hat_mid w u e * hat_mid w v e)%F)
    A Af P M Pf Mf (assemble_tri2dp1_mass_sparsematrix dc A Af).
Proof.
  intros K L dc w num Hs Hok area HA A Af P M Pf Mf HR.
  apply (assembled_of L dc w num mass_element (Fmass w area)); try assumption.
  - apply (mass_fits L w area HA).
  - apply (mass_zero L w area Hok).
  - intros u v. reflexivity.
Qed.
Print Assumptions C62_mass.

(** The load vector, whatever the vector contained before. *)
Theorem C62_functional : forall (K : ofops), ofield_laws K -> forall (dc : tri2dp1 K) w num,
  space_is dc w num -> mesh_ok w -> forall area, areas w area ->
  forall f (fv : arr K), length fv = p1_ndof dc -> exists fv' g,
    assemble_tri2dp1_functional_avector dc f fv = Ok fv' /\ aval fv' (p1_ndof dc) g /\
    forall u, u < mV w -> free w u ->
      g (num u) = midpoint_rule w area (fun e => f (edge_mid w e) * hat_mid w u e)%F.
Proof.
  intros K L dc w num Hs Hok area HA f fv Hl.
  destruct (rok_inv _ _ (run_load L dc w num Hs Hok area HA f fv Hl)) as (fv' & E & g & Hg & H).
  exists fv', g. split; [exact E|]. split; [exact Hg|]. intros u Hu Fu. apply H; [exact Hu|]. apply free_b. exact Fu.
Qed.
Print Assumptions C62_functional.

(** The vector of boundary values; without a function the values are zero. *)
Theorem C62_dirichlet : forall (K : ofops) (dc : tri2dp1 K) w num, space_is dc w num ->
  forall d (dv : arr K), length dv = p1_nfix dc -> exists dv' g,
    assemble_tri2dp1_dirichlet_avector dc d dv = Ok dv' /\ aval dv' (p1_nfix dc) g /\
    forall v, v < mV w -> ~ free w v -> g (num v) = match d with Some d => d (mx w v) | None => f0 end.
Proof.
  intros K dc w num Hs d dv Hl.
  destruct (rok_inv _ _ (run_dirichlet dc w num Hs d dv Hl)) as (dv' & E & g & Hg & H). eauto 6.
Qed.
Print Assumptions C62_dirichlet.

(** The maximal error in the free vertices. *)
Theorem C62_normmax : forall (K : ofops), ofield_laws K -> forall (dc : tri2dp1 K) w num, space_is dc w num ->
  forall u xs c, aval xs (p1_ndof dc) c -> exists n,
    normmax_tri2dp1 dc u xs = Ok n /\ fle f0 n /\
    (forall v, v < mV w -> free w v -> fle (rabs (u (mx w v) - c (num v))%F) n) /\
    (n = f0 \/ exists v, v < mV w /\ free w v /\ n = rabs (u (mx w v) - c (num v))%F).
Proof.
  intros K L dc w num Hs u xs c Hx.
  destruct (rok_inv _ _ (run_normmax dc w num Hs (ofield_order L) u xs c Hx)) as (n & E & H). exists n. auto.
Qed.
Print Assumptions C62_normmax.

(** The prolongation stores exactly the pairs of a fine vertex and a coarse hat
    function that does not vanish there, and contains its value. *)
Theorem C62_prolongation : forall (K : ofops), ofield_laws K -> forall (df dcr : tri2dp1 K) wf w nf nc rf,
  space_is df wf nf -> space_is dcr w nc -> mesh_ok w -> refined w wf -> describes rf w ->
  0 < p1_ndof df -> 0 < p1_ndof dcr -> exists a M,
    build_tri2dp1_prolongation_sparsematrix df dcr rf = Ok (Some a) /\
    sparse_is a (p1_ndof df) (p1_ndof dcr)
      (fun r c => exists i j, i < mV wf /\ j < mV w /\ free wf i /\ free w j /\ hat_fine w j i <> f0 /\
         nf i = r /\ nc j = c) M /\
    forall i j, i < mV wf -> j < mV w -> free wf i -> free w j -> M (nf i) (nc j) = hat_fine w j i.
Proof.
  intros K L df dcr wf w nf nc rf Hf Hc Hok Href Hrf H1 H2.
  assert (HN : half K <> f0).
  { intros E. pose proof (half_two (ol_field K L) (lit2_ne L)) as H. rewrite E in H.
    apply (fl_1_neq_0 K (ol_field K L)). rewrite <- H. apply (Radd_0_l (rl_ring K (fl_ring K (ol_field K L)))). }
  assert (HM : forall i j, hat_fine w j i <> f0 <-> meets w i j).
  { intros i j. unfold hat_fine, hat_mid, meets. destruct (Nat.ltb_spec i (mV w)) as [Hlt|Hge].
    - destruct (Nat.eqb_spec i j) as [->|N].
      + split; [left; auto|]. intros _. apply (fl_1_neq_0 K (ol_field K L)).
      + split; [congruence|]. intros [[_ E]|[E _]]; [congruence|lia].
    - destruct (Nat.eqb_spec (fst (me w (i - mV w))) j) as [E1|E1],
        (Nat.eqb_spec (snd (me w (i - mV w))) j) as [E2|E2]; cbn [orb].
      1-3: split; [intros _; right; auto|intros _; exact HN].
      split; [congruence|]. intros [[E _]|[_ [E|E]]]; [lia|congruence|congruence]. }
  destruct (rok_inv _ _ (run_prolong (fl_ring K (ol_field K L)) df dcr wf w nf nc Hf Hc Hok Href rf Hrf H1 H2))
    as (o & E & a & M & -> & HS & HV).
  exists a, M. split; [exact E|]. split.
  - eapply sparse_is_ext; [exact HS| |reflexivity]. intros r c _. cbv beta. split.
    + intros (i & j & Hi & Hj & Fi & Fj & Hm & R). exists i, j. rewrite !free_b, HM. auto 8.
    + intros (i & j & Hi & Hj & Fi & Fj & Hm & R). exists i, j. rewrite !free_b in *. rewrite HM in Hm. auto 8.
  - intros i j Hi Hj Fi Fj. apply HV; try assumption; apply free_b; assumption.
Qed.
Print Assumptions C62_prolongation.

(** Gradients and areas exist on every mesh without degenerate triangles. *)
Theorem C62_gradients : forall (K : ofops), ofield_laws K -> forall w : mview K, nondegenerate w ->
  exists G area, hat_gradients w G /\ areas w area.
Proof.
  intros K L w HN. exists (Gx w), (Ax w). split; [apply (grads_exist L); exact HN|apply (areas_exist L)].
Qed.
Print Assumptions C62_gradients.

(** ** Refuted part *)

(** No matrix can be built if there are no degrees of freedom, for example on
    the unit square as the library constructs it: the run stops at an
    assertion.  The prolongation from such a mesh does so as well, so a
    hierarchy of meshes cannot start with this square. *)
Theorem C62_no_dof_refuted : forall (K : ofops),
  exists w dc num, mesh_is (new_unitsquare_tri2d (K := K)) w /\ mesh_ok w /\
    new_tri2dp1 (new_unitsquare_tri2d (K := K)) = Ok dc /\ space_is dc w num /\
    build_tri2dp1_sparsematrix dc = Err EAssert /\
    (forall df rf, build_tri2dp1_prolongation_sparsematrix df dc rf = Err EAssert).
Proof.
  intros K. destruct (unitsquare_ok (K := K)) as (w & Hm & Hok & EV & _).
  destruct (run_new (new_unitsquare_tri2d (K := K)) w Hm) as (dc & E & Em & Hs).
  exists w, dc. eexists. split; [exact Hm|]. split; [exact Hok|]. split; [exact E|]. split; [exact Hs|].
  assert (N : p1_ndof dc = 0).
  { cbn in E. injection E as <-. reflexivity. }
  split.
  - unfold build_tri2dp1_sparsematrix. rewrite N. reflexivity.
  - intros df rf. unfold build_tri2dp1_prolongation_sparsematrix, new_sparsepattern. rewrite N.
    destruct (0 <? p1_ndof df); reflexivity.
Qed.
Print Assumptions C62_no_dof_refuted.

(** ** The hypotheses are met, and values *)

(** The unit circle has one inner vertex and no degenerate triangle. *)
Section Circle.
  Context {K : ofops} (L : ofield_laws K).
  Add Ring Kring_fem8 : (rl_ring K (fl_ring K (ol_field K L))).
  Lemma circle_nondegenerate (w : mview K) : mesh_is (new_unitcircle_tri2d (K := K)) w -> mT w = 4 -> mV w = 5 -> nondegenerate w.
  Proof.
    intros Hm ET EV j v0 v1 v2 Hj C. pose proof (getvertices_run _ _ Hm j v0 v1 v2 Hj C) as G.
    pose proof Hm as (_ & _ & _ & Ax & _). rewrite ET in Hj.
    assert (X : forall i, i < 5 -> aget (t2_x (new_unitcircle_tri2d (K := K))) i = Ok (mx w i)).
    { intros i Hi. apply (aval_get _ _ _ _ Ax). lia. }
    pose proof (X 0 ltac:(lia)) as X0. pose proof (X 1 ltac:(lia)) as X1. pose proof (X 2 ltac:(lia)) as X2.
    pose proof (X 3 ltac:(lia)) as X3. pose proof (X 4 ltac:(lia)) as X4. clear X.
    cbn in X0, X1, X2, X3, X4. injection X0 as X0. injection X1 as X1. injection X2 as X2. injection X3 as X3. injection X4 as X4.
    pose proof (fl_1_neq_0 K (ol_field K L)) as N.
    assert (N1 : forall d : K, d = f1 \/ d = (- f1)%F -> d <> f0).
    { intros d [->| ->]; [exact N|]. intros E. apply N. transitivity (- (- (f1 : K)) : K)%F; [ring|]. rewrite E. ring. }
    apply N1.
    destruct j as [|[|[|[|j]]]]; [| | | |lia]; cbn in G; injection G as <- <- <-;
      rewrite <- ?X0, <- ?X1, <- ?X2, <- ?X3, <- ?X4; unfold det; cbn [fst snd];
      first [left; ring|right; ring].
  Qed.
  Lemma circle_dof dc : new_tri2dp1 (new_unitcircle_tri2d (K := K)) = Ok dc -> p1_ndof dc = 1 /\ p1_nfix dc = 4.
  Proof. intros E. cbn in E. injection E as <-. split; reflexivity. Qed.
End Circle.
Example C62_hyps : exists w dc num, mesh_is (new_unitcircle_tri2d (K := QcO)) w /\ mesh_ok w /\ nondegenerate w /\
  space_is dc w num /\ p1_ndof dc = 1 /\ p1_nfix dc = 4 /\
  exists a, ready dc w num a None (pairs w num (free w)) (fun _ _ => f0) (fun _ _ => False) (fun _ _ => f0).
Proof.
  destruct (unitcircle_ok (K := QcO)) as (w & Hm & Hok & EV & EE & ET).
  destruct (run_new (new_unitcircle_tri2d (K := QcO)) w Hm) as (dc & E & Em & Hs).
  destruct (circle_dof dc E) as [N1 N2].
  exists w, dc. eexists. split; [exact Hm|]. split; [exact Hok|].
  split; [exact (circle_nondegenerate QcO_laws w Hm ET EV)|]. split; [exact Hs|]. split; [exact N1|]. split; [exact N2|].
  destruct (C62_build QcO QcO_laws dc w _ Hs Hok ltac:(lia)) as (a & _ & Ha). exists a.
  split; [exact Ha|]. split; [auto|]. discriminate.
Qed.

(** The refined unit square has one inner vertex, its Laplace matrix has the
    entry four; the mass matrix has the entry one half. *)
Definition c62_square : res (tri2dp1 QcO) :=
  let* r := refine_tri2d false (new_unitsquare_tri2d (K := QcO)) in new_tri2dp1 (fst r).
Example C62_values :
  (let* dc := c62_square in
   let* a := build_tri2dp1_sparsematrix dc in
   let* af := build_tri2dp1_interaction_sparsematrix dc in
   let* (l, lf) := assemble_tri2dp1_laplace_sparsematrix dc a (Some af) in
   let* (s, _) := assemble_tri2dp1_mass_sparsematrix dc a None in
   let* x := aget (scoeff l) 0 in
   let* y := aget (scoeff s) 0 in
   Ok (p1_ndof dc, p1_nfix dc, feqb x ((1 + 1) * (1 + 1))%F, feqb y (half QcO))) = Ok (1, 8, true, true).
Proof. vm_compute. reflexivity. Qed.
