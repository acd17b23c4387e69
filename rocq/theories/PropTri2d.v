(** * C58: triangular meshes in the plane

    Property: a consistent triangular mesh is one whose edges join two
    different vertices, whose triangles are triangles, whose inner edges lie
    between two triangles, and whose boundary edges belong to one triangle and
    have their end points on the boundary.  Refining a consistent mesh always
    succeeds and gives the regular refinement, which is consistent again; the
    four parts of a triangle have a quarter of its signed area each; the
    description of the refinement names the right ancestors; the corners
    reported for a triangle are the ones opposite its edges; the consistency
    check finds no errors exactly if the mesh satisfies its conditions; and
    the meshes shipped with the library stay consistent under every number
    of refinements. *)
From Coq Require Import Arith Lia List Bool.
From Verif Require Import Fld Inst Prog Arr HmSpec Tri2d Tri2dSpec Tri2dP Tri2dP2 Tri2dP3 Tri2dP4 Tri2dP5.
Import ListNotations.
Local Open Scope nat_scope.

Theorem C58_refine : forall (K : fops), field_laws K -> (1 + 1)%F <> @f0 K ->
  forall (m : tri2d K) w, mesh_is m w -> mesh_ok w ->
  forall t2r : bool, exists r o w',
    refine_tri2d t2r m = Ok (r, o) /\
    mesh_is r w' /\ mesh_ok w' /\ refined w w' /\
    (t2r = true -> exists d, o = Some d /\ describes d w) /\ (t2r = false -> o = None).
Proof.
  intros K L H2 m w Hm Hok t2r.
  destruct (run_refine m w Hm Hok t2r) as (r & o & E & Hr & Ho).
  exists r, o, (fine w). split; [exact E|]. split; [exact Hr|].
  split; [apply fine_ok; exact Hok|]. split; [apply fine_refined; assumption|].
  split; intros ->; exact Ho.
Qed.
Print Assumptions C58_refine.

(** Each of the four parts has a quarter of the signed area. *)
Theorem C58_refine_area : forall (K : fops), field_laws K -> (1 + 1)%F <> @f0 K ->
  forall w w' : mview K, mesh_ok w -> refined w w' ->
  forall j v0 v1 v2 q u0 u1 u2, j < mT w -> corners w j v0 v1 v2 ->
    q < 4 -> corners w' (4 * j + q) u0 u1 u2 ->
    let d := det (mx w' u0) (mx w' u1) (mx w' u2) in
    (d + d + (d + d))%F = det (mx w v0) (mx w v1) (mx w v2).
Proof.
  intros K L H2 w w' Hok (EV & EE & ET & Hx & Hn & He & Hi & HC) j v0 v1 v2 q u0 u1 u2 Hj C Hq Cu.
  destruct (HC j v0 v1 v2 Hj C) as (C0 & C1 & C2 & C3).
  destruct (corners_lt w Hok j v0 v1 v2 C) as (L0 & L1 & L2).
  pose proof C as (N1 & N2 & N3 & HE & J0 & J1 & J2).
  assert (X : forall k a b, k < 3 -> joins (me w (mt w j k)) a b ->
    mx w' (mV w + mt w j k) = mid (mx w a) (mx w b)).
  { intros k a b Hk J. destruct (Hn (mt w j k) (HE k Hk)) as [M _].
    apply (midpoint_fun L H2 (mx w (fst (me w (mt w j k)))) (mx w (snd (me w (mt w j k))))); [exact M|].
    destruct (mid_midpoint L H2 (mx w a) (mx w b)) as [P Q].
    destruct J as [-> | ->]; cbn [fst snd]; split; rewrite ?P, ?Q; try reflexivity;
      apply (Radd_comm (rl_ring K (fl_ring K L))). }
  pose proof (X 0 v1 v2 ltac:(lia) J0) as X0. pose proof (X 1 v2 v0 ltac:(lia) J1) as X1.
  pose proof (X 2 v0 v1 ltac:(lia) J2) as X2.
  destruct (Hx v0 L0) as [Y0 _]. destruct (Hx v1 L1) as [Y1 _]. destruct (Hx v2 L2) as [Y2 _].
  destruct (four_mid L H2 (mx w v0) (mx w v1) (mx w v2)) as (A0 & A1 & A2 & A3).
  assert (U : forall a b c, corners w' (4 * j + q) a b c -> u0 = a /\ u1 = b /\ u2 = c).
  { intros a b c Ca. destruct (corners_cv _ _ _ _ _ Ca) as (P0 & P1 & P2).
    destruct (corners_cv _ _ _ _ _ Cu) as (Q0 & Q1 & Q2). repeat split; congruence. }
  cbv zeta.
  destruct q as [|[|[|[|q]]]]; [rewrite Nat.add_0_r in *|..|lia];
    [apply U in C0; destruct C0 as (-> & -> & ->)|apply U in C1; destruct C1 as (-> & -> & ->)
    |apply U in C2; destruct C2 as (-> & -> & ->)|apply U in C3; destruct C3 as (-> & -> & ->)];
    rewrite ?X0, ?X1, ?X2, ?Y0, ?Y1, ?Y2; symmetry; assumption.
Qed.
Print Assumptions C58_refine_area.

Theorem C58_getvertices : forall (K : fops) (m : tri2d K) w, mesh_is m w ->
  forall j v0 v1 v2, j < mT w -> corners w j v0 v1 v2 ->
  getvertices_tri2d m j = Ok (v0, v1, v2).
Proof. intros K m w Hm j v0 v1 v2. apply getvertices_run. exact Hm. Qed.
Print Assumptions C58_getvertices.

(** No errors are found exactly if the conditions hold, and they hold for
    every consistent mesh. *)
Theorem C58_check : forall (K : fops) (m : tri2d K) w, mesh_is m w ->
  (check_tri2d m = Ok 0 <-> mesh_checked w) /\ (mesh_ok w -> check_tri2d m = Ok 0).
Proof.
  intros K m w Hm. split; [apply check_ok; exact Hm|].
  intros Hok. apply (check_ok m w Hm). apply ok_checked. exact Hok.
Qed.
Print Assumptions C58_check.

Definition shipped {K : fops} (m : tri2d K) : Prop :=
  m = new_unitsquare_tri2d \/ m = new_unitcircle_tri2d \/ m = new_lshape_tri2d \/ m = new_ushape_tri2d.

Lemma refine_times_ok {K : fops} n : forall (m : tri2d K) w, mesh_is m w -> mesh_ok w ->
  exists r w', refine_times n m = Ok r /\ mesh_is r w' /\ mesh_ok w' /\ mT w' = 4 ^ n * mT w.
Proof.
  induction n as [|n IH]; intros m w Hm Hok.
  - exists m, w. split; [reflexivity|]. split; [exact Hm|]. split; [exact Hok|]. cbn. lia.
  - destruct (run_refine m w Hm Hok false) as (r & o & E & Hr & _).
    destruct (IH r (fine w) Hr (fine_ok w Hok)) as (r' & w' & E' & Hr' & Hok' & ET).
    exists r', w'. cbn [refine_times]. rewrite E. cbn [rbind fst].
    split; [exact E'|]. split; [exact Hr'|]. split; [exact Hok'|].
    rewrite ET. change (mT (fine w)) with (4 * mT w). cbn [Nat.pow]. lia.
Qed.

Theorem C58_shipped_meshes : forall (K : fops) (m : tri2d K), shipped m -> forall n, exists r w,
  refine_times n m = Ok r /\ mesh_is r w /\ mesh_ok w /\ check_tri2d r = Ok 0 /\
  t2_triangles r = 4 ^ n * t2_triangles m.
Proof.
  intros K m Hs n.
  assert (exists w0, mesh_is m w0 /\ mesh_ok w0) as (w0 & Hm & Hok).
  { destruct Hs as [-> |[-> |[-> | ->]]];
      [destruct (unitsquare_ok (K := K)) as (w0 & A & B & _)|destruct (unitcircle_ok (K := K)) as (w0 & A & B & _)
      |destruct (lshape_ok (K := K)) as (w0 & A & B & _)|destruct (ushape_ok (K := K)) as (w0 & A & B & _)]; eauto. }
  destruct (refine_times_ok n m w0 Hm Hok) as (r & w & E & Hr & Hokr & ET).
  exists r, w. split; [exact E|]. split; [exact Hr|]. split; [exact Hokr|].
  split; [apply (check_ok r w Hr), ok_checked; exact Hokr|].
  pose proof Hm as (_ & _ & T0 & _). destruct Hr as (_ & _ & T1 & _). congruence.
Qed.
Print Assumptions C58_shipped_meshes.

(** ** Refuted parts *)

Lemma rfor_each {A} (P : A -> Prop) (R : nat -> Prop) (body : nat -> A -> res A) lo n : forall s s',
  (forall i s s', P s -> body i s = Ok s' -> P s' /\ R i) -> P s -> rfor lo n body s = Ok s' ->
  P s' /\ forall i, lo <= i < lo + n -> R i.
Proof.
  revert lo. induction n as [|n IH]; intros lo s s' Hb Hs H; cbn in H.
  - injection H as <-. split; [exact Hs|lia].
  - destruct (body lo s) as [s1|] eqn:E; cbn in H; [|discriminate].
    destruct (Hb _ _ _ Hs E) as [Hs1 HR]. destruct (IH _ _ _ Hb Hs1 H) as [A1 B1].
    split; [exact A1|]. intros i Hi. destruct (Nat.eq_dec i lo) as [->|N]; [exact HR|apply B1; lia].
Qed.

Lemma aset_len {A} (a a' : arr A) i x : aset a i x = Ok a' -> i < length a /\ length a' = length a.
Proof.
  unfold aset. destruct (Nat.ltb_spec i (length a)); [|discriminate]. intros E. injection E as <-.
  rewrite lupd_length. auto.
Qed.
Lemma ainc_len (a a' : arr nat) i : ainc a i = Ok a' -> i < length a /\ length a' = length a.
Proof. unfold ainc. destruct (aget a i); cbn; [|discriminate]. apply aset_len. Qed.

(** The check is meant to report illegal edge numbers in triangles (it has a
    message for them), but it goes on to count the triangles of that edge: for
    every mesh with such a defect the run leaves the array of counters, and
    no number of errors is ever reported. *)
Theorem C58_check_illegal_edge_refuted : forall (K : fops) (m : tri2d K) w, mesh_is m w ->
  (exists j k, j < mT w /\ k < 3 /\ mE w <= mt w j k) ->
  forall n, check_tri2d m <> Ok n.
Proof.
  intros K m w Hm (j & k & Hj & Hk & Hbad) n H.
  pose proof Hm as (EV & EE & ET & Ax & Ae & At & Axb & Aeb).
  unfold check_tri2d in H.
  destruct (check_edges m) as [a|]; cbn [rbind] in H; [|discriminate].
  destruct (check_boundary m a) as [b|]; cbn [rbind] in H; [|discriminate].
  destruct (check_triangles m b) as [c|]; cbn [rbind] in H; [|discriminate].
  unfold check_neighbours in H. destruct (count_neighbours m) as [en|] eqn:E; cbn [rbind] in H; [|discriminate].
  unfold count_neighbours in E. rewrite EE, ET in E.
  destruct (rfor 0 (mE w) _ _) as [en0|] eqn:E0; cbn [rbind] in E; [|discriminate].
  apply (rfor_each (fun en => length en = mE w) (fun _ => True)) in E0.
  2:{ intros i s s' Hs Hi. apply aset_len in Hi. lia. }
  2:{ apply repeat_length. }
  destruct E0 as [L0 _].
  apply (rfor_each (fun en => length en = mE w) (fun j => j < mT w -> forall k, k < 3 -> mt w j k < mE w)) in E; [|..|exact L0].
  - destruct E as [_ E]. specialize (E j ltac:(lia) Hj k Hk). lia.
  - intros i s s' Hs Hi.
    assert (HH : length s' = mE w /\ exists t, aget (t2_t m) i = Ok t /\ forall k, k < 3 -> tedge t k < mE w).
    { destruct (aget (t2_t m) i) as [t|]; cbn [rbind] in Hi; [|discriminate].
      destruct (ainc s (tedge t 0)) as [s1|] eqn:E1; cbn [rbind] in Hi; [|discriminate].
      destruct (ainc s1 (tedge t 1)) as [s2|] eqn:E2; cbn [rbind] in Hi; [|discriminate].
      apply ainc_len in E1, E2, Hi. split; [lia|]. exists t. split; [reflexivity|].
      intros [|[|[|k']]] Hk'; try lia; unfold tedge in *; lia. }
    destruct HH as (HL & t & Et & Ht). split; [exact HL|].
    intros Hi' k' Hk'. rewrite (aval_get _ _ _ _ At Hi') in Et. injection Et as <-.
    destruct k' as [|[|[|k']]]; [apply (Ht 0)|apply (Ht 1)|apply (Ht 2)|]; lia.
Qed.
Print Assumptions C58_check_illegal_edge_refuted.

(** The same for an illegal vertex of a boundary edge. *)
Theorem C58_check_illegal_vertex_refuted : forall (K : fops) (m : tri2d K) w, mesh_is m w ->
  (exists i, i < mE w /\ meb w i = 1 /\ (mV w <= fst (me w i) \/ mV w <= snd (me w i))) ->
  forall n, check_tri2d m <> Ok n.
Proof.
  intros K m w Hm (i & Hi & Hb & Hbad) n H.
  pose proof Hm as (EV & EE & ET & Ax & Ae & At & Axb & Aeb).
  unfold check_tri2d in H.
  destruct (check_edges m) as [a|]; cbn [rbind] in H; [|discriminate].
  destruct (check_boundary m a) as [b|] eqn:E; cbn [rbind] in H; [|discriminate].
  unfold check_boundary in E. rewrite EE in E.
  apply (rfor_each (fun _ => True) (fun i => i < mE w -> meb w i = 1 -> fst (me w i) < mV w /\ snd (me w i) < mV w)) in E;
    [|..|exact I].
  - destruct E as [_ E]. specialize (E i ltac:(lia) Hi Hb). lia.
  - intros i' s s' _ Hs. split; [exact I|]. intros Hi' Hb'.
    rewrite (aval_get _ _ _ _ Aeb Hi'), Hb', (aval_get _ _ _ _ Ae Hi') in Hs. cbn [rbind] in Hs.
    change (1 =? 1) with true in Hs. cbv iota in Hs.
    destruct Axb as [LX _].
    assert (G : forall v y, aget (t2_xb m) v = Ok y -> v < mV w).
    { intros v y Hv. unfold aget in Hv. destruct (nth_error (t2_xb m) v) eqn:En; [|discriminate].
      rewrite <- LX. apply nth_error_Some. congruence. }
    destruct (aget (t2_xb m) (fst (me w i'))) eqn:E1; cbn [rbind] in Hs; [|discriminate].
    destruct (aget (t2_xb m) (snd (me w i'))) eqn:E2; cbn [rbind] in Hs; [|discriminate].
    split; eapply G; eassumption.
Qed.
Print Assumptions C58_check_illegal_vertex_refuted.

(** A mesh without errors need not be consistent: two edges between the same
    two vertices and a third edge pass for a triangle. *)
Definition degenerate {K : fops} : tri2d K :=
  T2 3 3 1 (aof [(f0, f0); (f1, f0); (f0, f1)]) (aof [(0, 1); (0, 1); (1, 2)]) (aof [(0, 1, 2)])
     (aof [1; 1; 1]) (aof [1; 1; 1]).

Theorem C58_check_degenerate_refuted : forall (K : fops),
  check_tri2d (degenerate (K := K)) = Ok 0 /\
  forall w, mesh_is (degenerate (K := K)) w -> ~ exists v0 v1 v2, corners w 0 v0 v1 v2.
Proof.
  intros K. split; [reflexivity|].
  intros w (EV & EE & ET & Ax & [_ Ae] & [_ At] & _) (v0 & v1 & v2 & N1 & N2 & N3 & HE & J0 & J1 & J2).
  cbn in EE, ET. rewrite <- EE in Ae. rewrite <- ET in At.
  pose proof (At 0 ltac:(lia)) as T0. cbn in T0. injection T0 as T0 T1 T2.
  rewrite <- T0 in J0. rewrite <- T1 in J1.
  pose proof (Ae 0 ltac:(lia)) as E0. pose proof (Ae 1 ltac:(lia)) as E1. cbn in E0, E1.
  injection E0 as E0. injection E1 as E1. rewrite <- E0 in J0. rewrite <- E1 in J1.
  destruct J0 as [P|P], J1 as [Q|Q]; apply (f_equal fst) in P as P1; apply (f_equal snd) in P as P2;
    apply (f_equal fst) in Q as Q1; apply (f_equal snd) in Q as Q2; cbn [fst snd] in *; congruence.
Qed.
Print Assumptions C58_check_degenerate_refuted.

(** The hypotheses hold for the mesh of the U-shaped domain over the rational
    numbers, and its first triangle has corners. *)
Example C58_hyps : field_laws Qcf /\ (1 + 1)%F <> @f0 Qcf /\
  exists w, mesh_is (new_ushape_tri2d (K := Qcf)) w /\ mesh_ok w /\ mT w = 24 /\
  (exists v0 v1 v2, corners w 0 v0 v1 v2) /\ exists w', refined w w'.
Proof.
  assert (L : field_laws Qcf) by apply Qcf_field.
  assert (H2 : (1 + 1)%F <> @f0 Qcf) by (intros E; discriminate E).
  split; [exact L|]. split; [exact H2|].
  destruct (ushape_ok (K := Qcf)) as (w & A & B & _ & _ & T). exists w.
  split; [exact A|]. split; [exact B|]. split; [exact T|].
  split; [apply B; lia|]. exists (fine w). apply fine_refined; assumption.
Qed.
