(** * C62, continued: the Laplace matrix, the error norm, the geometry

    Property: the Laplace matrix is symmetric and positive semidefinite, and the
    sums of its rows and of the rows of the interaction matrix cancel, since
    constant functions have no energy.  norml2_tri2dp1 returns the L2-norm of
    the difference between a discrete and a given function by the edge midpoint
    rule.  The geometry for clustering contains the free vertices and the
    smallest boxes that contain the supports of their hat functions, and is a
    valid argument for building cluster trees. *)
From Coq Require Import Arith Lia List Bool Ring QArith Qcanon.
From Verif Require Import Fld Ord Inst OrdInst Prog Arr HmSpec Sparse SparseP PropSparse Tri2d Tri2dSpec Tri2dP Tri2dP2 Tri2dP3 Tri2dP5
  Cluster ClusterSpec PropCluster Fem FemSpec FemP FemP2 FemP3 FemP4 FemP5 FemP6 PropFem Fem2 Fem2Spec FemP7 FemP8 FemP9.
Import ListNotations.
Local Open Scope nat_scope.

Theorem C62_stiffness : forall (K : ofops), ofield_laws K -> forall (dc : tri2dp1 K) w num,
  space_is dc w num -> mesh_ok w -> nondegenerate w -> 0 < p1_ndof dc -> 0 < p1_nfix dc ->
  exists a af A Af P Pf M Mf,
    build_tri2dp1_sparsematrix dc = Ok a /\ build_tri2dp1_interaction_sparsematrix dc = Ok af /\
    assemble_tri2dp1_laplace_sparsematrix dc a (Some af) = Ok (A, Some Af) /\
    sparse_is A (p1_ndof dc) (p1_ndof dc) P M /\ sparse_is Af (p1_ndof dc) (p1_nfix dc) Pf Mf /\
    (forall r s, r < p1_ndof dc -> s < p1_ndof dc -> M r s = M s r) /\
    (forall x, fle f0 (sum (p1_ndof dc) (fun r => sum (p1_ndof dc) (fun s => x r * M r s * x s)))%F) /\
    (forall r, r < p1_ndof dc -> (sum (p1_ndof dc) (fun s => M r s) + sum (p1_nfix dc) (fun s => Mf r s))%F = f0).
Proof.
  intros K L dc w num Hs Hok HN Hn Hf. pose proof (fl_ring K (ol_field K L)) as RL.
  assert (Z : forall x : K, (f0 + x)%F = x) by (intros x; apply (Radd_0_l (rl_ring K RL))).
  assert (Z' : forall x : K, (x + f0)%F = x) by (intros x; rewrite (Radd_comm (rl_ring K RL)); apply Z).
  destruct (C62_build K L dc w num Hs Hok Hn) as (a & Ea & Ha).
  destruct (C62_build_interaction K L dc w num Hs Hok Hn Hf) as (af & Eaf & Haf).
  destruct (C62_gradients K L w HN) as (G & area & HG & HA).
  assert (RD : ready dc w num a (Some af) (pairs w num (free w)) (fun _ _ => f0) (pairs w num (fun v => ~ free w v)) (fun _ _ => f0)).
  { split; [exact Ha|]. split; [auto|]. intros a' E. injection E as <-. split; [exact Haf|auto]. }
  destruct (C62_laplace K L dc w num Hs Hok HN G area HG HA _ _ _ _ _ _ RD) as (A & Af & M & Mf & E & S1 & V1 & _ & R2).
  destruct (R2 ltac:(discriminate)) as (Af' & -> & S2 & V2).
  exists a, af, A, Af', (pairs w num (free w)), (pairs w num (fun v => ~ free w v)), M, Mf.
  split; [exact Ea|]. split; [exact Eaf|]. split; [exact E|]. split; [exact S1|]. split; [exact S2|].
  pose proof Hs as (_ & _ & _ & N1 & N2).
  assert (W1 : forall u v, u < mV w -> v < mV w -> free w u -> free w v -> M (num u) (num v) = energy w G area u v).
  { intros u v Hu Hv Fu Fv. rewrite V1 by assumption. apply Z. }
  assert (W2 : forall u v, u < mV w -> v < mV w -> free w u -> ~ free w v -> Mf (num u) (num v) = energy w G area u v).
  { intros u v Hu Hv Fu Fv. rewrite V2 by assumption. apply Z. }
  assert (NB1 : numbering (fun v => isfree w v = true) (mV w) (p1_ndof dc) num).
  { destruct N1 as (A1 & A2 & A3). split; [|split].
    - intros i Hi Fi. apply A1; [exact Hi|apply free_b; exact Fi].
    - intros i j Hij Hj Fi Fj. apply A2; try assumption; apply free_b; assumption.
    - intros k Hk. destruct (A3 k Hk) as (i & Hi & Fi & Ei). exists i. split; [exact Hi|]. split; [apply free_b; exact Fi|exact Ei]. }
  assert (NB2 : numbering (fun v => negb (isfree w v) = true) (mV w) (p1_nfix dc) num).
  { destruct N2 as (A1 & A2 & A3). split; [|split].
    - intros i Hi Fi. apply A1; [exact Hi|apply fix_b, negb_true_iff; exact Fi].
    - intros i j Hij Hj Fi Fj. apply A2; try assumption; apply fix_b, negb_true_iff; assumption.
    - intros k Hk. destruct (A3 k Hk) as (i & Hi & Fi & Ei). exists i. split; [exact Hi|]. split; [apply negb_true_iff, fix_b; exact Fi|exact Ei]. }
  split; [|split].
  - intros r s Hr Hs'. destruct N1 as (_ & _ & A3). destruct (A3 r Hr) as (u & Hu & Fu & <-). destruct (A3 s Hs') as (v & Hv & Fv & <-).
    rewrite !W1 by assumption. apply (energy_sym L).
  - intros x. set (c := fun u => if isfree w u then x (num u) else f0).
    replace (sum (p1_ndof dc) (fun r => sum (p1_ndof dc) (fun s => x r * M r s * x s)))%F
      with (sum (mV w) (fun u => sum (mV w) (fun v => c u * energy w G area u v * c v)))%F; [apply (energy_nn L); assumption|].
    symmetry. rewrite (sum_numbered L (isfree w) (mV w) _ num _ NB1). apply sum_ext. intros u Hu. unfold c at 1.
    destruct (isfree w u) eqn:Fu.
    + rewrite (sum_numbered L (isfree w) (mV w) _ num _ NB1). apply sum_ext. intros v Hv. unfold c.
      destruct (isfree w v) eqn:Fv; [|symmetry; apply (mul0 L)].
      rewrite W1 by (try assumption; apply free_b; assumption). reflexivity.
    + symmetry. apply (sum_0 RL). intros v _. apply (mul00 L).
  - intros r Hr. destruct N1 as (_ & _ & A3). destruct (A3 r Hr) as (u & Hu & Fu & <-).
    rewrite (sum_numbered L (isfree w) (mV w) _ num _ NB1), (sum_numbered L (fun v => negb (isfree w v)) (mV w) _ num _ NB2).
    rewrite <- (sum_add RL). transitivity (sum (mV w) (fun v => energy w G area u v)); [|apply (energy_const L); assumption].
    apply sum_ext. intros v Hv.
    destruct (isfree w v) eqn:Fv; cbn [negb].
    + rewrite W1 by (try assumption; apply free_b; assumption). apply Z'.
    + rewrite W2 by (try assumption; apply fix_b; assumption). apply Z.
Qed.
Print Assumptions C62_stiffness.

(** The discrete function has the values [u v] in the vertices; vectors that
    are not passed count as zero, and so does a function that is not passed. *)
Theorem C62_norml2 : forall (K : ofops), ofield_laws K -> forall (dc : tri2dp1 K) w num,
  space_is dc w num -> mesh_ok w -> forall area, areas w area ->
  forall (sq : K -> K) f b bf c cf u, coeffs b (p1_ndof dc) c -> coeffs bf (p1_nfix dc) cf ->
  (forall v, v < mV w -> free w v -> u v = c (num v)) -> (forall v, v < mV w -> ~ free w v -> u v = cf (num v)) ->
  let err e := match f with Some f => (lin_mid w u e - f (edge_mid w e))%F | None => lin_mid w u e end in
  norml2_tri2dp1 sq dc f b bf = Ok (sq (midpoint_rule w area (fun e => err e * err e)%F)).
Proof.
  intros K L dc w num Hs Hok area HA sq f b bf c cf u Hb Hbf U1 U2 err.
  rewrite (run_norml2 L dc w num Hs Hok area HA b bf c cf Hb Hbf sq f). f_equal. f_equal. unfold midpoint_rule.
  assert (E : forall e, FemP7.err w num c cf f e = err e).
  { intros e. unfold FemP7.err, err.
    assert (X : lin_mid w (vval w num c cf) e = lin_mid w u e).
    { unfold lin_mid. apply sum_ext. intros v Hv. f_equal. unfold vval. destruct (isfree w v) eqn:F; symmetry.
      - apply U1; [exact Hv|apply free_b; exact F].
      - apply U2; [exact Hv|apply fix_b; exact F]. }
    rewrite X. reflexivity. }
  apply sum_ext. intros j _. rewrite !E. reflexivity.
Qed.
Print Assumptions C62_norml2.

Theorem C62_clustergeometry : forall (K : ofops), order_laws K -> forall (dc : tri2dp1 K) w num,
  space_is dc w num -> mesh_ok w -> 0 < p1_ndof dc -> forall idx, length idx = p1_ndof dc ->
  exists cf idx' X Smin Smax, build_tri2dp1_clustergeometry dc idx = Ok (cf, idx') /\
    g_dim cf = 2 /\ g_nidx cf = p1_ndof dc /\
    input cf idx' 0 (p1_ndof dc) X Smin Smax (fun _ => f1) (p1_ndof dc) (fun i => i) /\
    (exists B1 B2, aval (g_hmin cf) 2 B1 /\ aval (g_hmax cf) 2 B2 /\
      forall j, j < 2 -> range (fun k => k < p1_ndof dc) (fun k => X k j) (B1 j) (B2 j)) /\
    forall u, u < mV w -> free w u ->
      X (num u) 0 = fst (mx w u) /\ X (num u) 1 = snd (mx w u) /\
      range (support w u) (fun v => fst (mx w v)) (Smin (num u) 0) (Smax (num u) 0) /\
      range (support w u) (fun v => snd (mx w v)) (Smin (num u) 1) (Smax (num u) 1).
Proof.
  intros K O dc w num Hs Hok Hn idx Hl.
  destruct (rok_inv _ _ (run_geometry O dc w num Hs Hok idx Hl Hn)) as ([cf idx'] & E & X & S1 & S2 & D & N & I & B & R).
  exists cf, idx', X, S1, S2. split; [exact E|]. split; [exact D|]. split; [exact N|]. split; [exact I|]. split; [exact B|].
  intros u Hu Fu. destruct (R u 0 Hu Fu ltac:(lia)) as [X0 R0]. destruct (R u 1 Hu Fu ltac:(lia)) as [X1 R1].
  split; [exact X0|]. split; [exact X1|]. split; [exact R0|exact R1].
Qed.
Print Assumptions C62_clustergeometry.

(** The unit circle (see [C62_hyps]) meets the hypotheses, too. *)
Example C62_more_hyps : exists w dc num, mesh_ok w /\ nondegenerate w /\ space_is (K := QcO) dc w num /\
  0 < p1_ndof dc /\ 0 < p1_nfix dc /\ exists area, areas w area.
Proof.
  destruct C62_hyps as (w & dc & num & _ & Hok & HN & Hs & N1 & N2 & _). exists w, dc, num.
  split; [exact Hok|]. split; [exact HN|]. split; [exact Hs|]. split; [lia|]. split; [lia|].
  destruct (C62_gradients QcO QcO_laws w HN) as (_ & area & _ & HA). exists area. exact HA.
Qed.
Example C62_norml2_value :
  (let* dc := c62_square in
   let* x := norml2_tri2dp1 (fun x => x) dc (Some (fun _ => f1)) None None in
   Ok (feqb x ((1 + 1) * (1 + 1))%F)) = Ok true.
Proof. vm_compute. reflexivity. Qed.
