(** * C63: polygons in the plane

    Property: prepare_curve2d computes the lengths of the edges and unit
    vectors perpendicular to them, pointing to the right of the edge.
    new_circle_curve2d, new_square_curve2d and new_star_curve2d deliver closed
    polygons with the given number of edges: the vertices of the first lie on
    the circle, those of the others run in equal steps from corner to corner
    of the square or the star.  The normal vectors of the circle and the square point
    outwards (refuted for the circle). *)
From Coq Require Import Arith Lia List Bool Reals Lra.
From Verif Require Import Fld Ord OrdInst Prog Arr HmSpec Tri2d Tri2dP Surf SurfSpec SurfP Curve CurveSpec
  CurveP CurveP2 CurveP3.
Import ListNotations.
Local Open Scope nat_scope.

Theorem C63_prepare : forall (K : ofops), ofield_laws K -> forall sq : K -> K, sqrt_laws sq ->
  forall (m : curve2d K) V E x e, curve_is m V E x e -> (forall i h, i < E -> h < 2 -> e i h < V) ->
  exists r, prepare_curve2d sq m = Ok r /\ curve_is r V E x e /\ curve_normals r E x e.
Proof. intros K L sq S m V E x e Hm He. apply rok_inv. apply run_prepare_curve; assumption. Qed.
Print Assumptions C63_prepare.

Theorem C63_circle : forall (K : ofops), ofield_laws K -> forall sq : K -> K, sqrt_laws sq ->
  forall (sn cs : nat -> nat -> K) n r, 3 <= n -> trig_laws sn cs n ->
  exists m x e, new_circle_curve2d sq sn cs n r = Ok m /\ curve_is m n n x e /\ closed_polygon n e /\
    (forall i, i < n -> x i 0 = (r * sn i n)%F /\ x i 1 = (r * cs i n)%F) /\
    (forall i, i < n -> (x i 0%nat * x i 0%nat + x i 1%nat * x i 1%nat)%F = (r * r)%F) /\
    curve_normals m n x e.
Proof.
  intros K L sq S sn cs n r Hn [_ T]. destruct (rok_inv _ _ (run_circle L sq S sn cs n r Hn)) as (m & E & H1 & H2).
  exists m. eexists. exists (cyc n). split; [exact E|]. split; [exact H1|]. split; [apply cyc_closed|].
  split; [intros; split; reflexivity|]. split; [|exact H2].
  intros i Hi. change (0 =? 0) with true. change (1 =? 0) with false. cbv iota.
  apply (circle_radius L). apply T. exact Hi.
Qed.
Print Assumptions C63_circle.

Theorem C63_square : forall (K : ofops), ofield_laws K -> forall sq : K -> K, sqrt_laws sq ->
  forall n (a : K), 4 <= n ->
  exists m x e, new_square_curve2d sq n a = Ok m /\ curve_is m n n x e /\ closed_polygon n e /\
    equal_steps n 4 (square_index n) (square_corner (a / f2)%F) x /\
    curve_normals m n x e /\ (a <> f0 -> normals_outward m n x).
Proof.
  intros K L sq S n a Hn. destruct (rok_inv _ _ (run_square L sq S n a Hn)) as (m & E & H1 & H2).
  rewrite (half_of L a) in *.
  exists m, (square_x n (a / f2)%F), (cyc n). split; [exact E|]. split; [exact H1|]. split; [apply cyc_closed|].
  split; [apply (square_steps L); exact Hn|]. split; [exact H2|].
  intros Ha. apply (outward_turn L); [exact H2|]. intros i Hi. apply (square_turn L); [exact Hn| |exact Hi].
  apply (half_ne L). exact Ha.
Qed.
Print Assumptions C63_square.

Theorem C63_star : forall (K : ofops), ofield_laws K -> forall sq : K -> K, sqrt_laws sq ->
  forall (sn cs : nat -> nat -> K) d (r : K), 0 < d ->
  exists m x e, new_star_curve2d sq sn cs (16 * d) r = Ok m /\ curve_is m (16 * d) (16 * d) x e /\
    closed_polygon (16 * d) e /\ equal_steps (16 * d) 16 (fun k => d * k) (star_corner sn cs r) x /\
    curve_normals m (16 * d) x e.
Proof.
  intros K L sq S sn cs d r Hd. rewrite (Nat.mul_comm 16 d).
  destruct (rok_inv _ _ (run_star L sq S sn cs d r Hd)) as (m & E & H1 & H2).
  exists m, (star_x d (star_corner sn cs r)), (cyc (d * 16)). split; [exact E|]. split; [exact H1|].
  split; [apply cyc_closed|]. split; [apply (star_steps L); exact Hd|exact H2].
Qed.
Print Assumptions C63_star.

(** Other numbers of edges stop with an assertion. *)
Theorem C63_refused : forall (K : fops) (sq : K -> K) (sn cs : nat -> nat -> K) n (r : K),
  (n < 3 -> new_circle_curve2d sq sn cs n r = Err EAssert) /\
  (n < 4 -> new_square_curve2d sq n r = Err EAssert) /\
  (n = 0 \/ n mod 16 <> 0 -> new_star_curve2d sq sn cs n r = Err EAssert).
Proof.
  intros K sq sn cs n r. split; [|split]; intros H.
  - unfold new_circle_curve2d. destruct (Nat.leb_spec 3 n); [lia|]. reflexivity.
  - unfold new_square_curve2d. destruct (Nat.leb_spec 4 n); [lia|]. reflexivity.
  - unfold new_star_curve2d. destruct (Nat.leb_spec 16 n) as [Hn|Hn]; [|reflexivity].
    destruct (Nat.eqb_spec (n mod 16) 0) as [E|E]; [|reflexivity]. destruct H; [lia|contradiction].
Qed.
Print Assumptions C63_refused.

(** The circle is traversed clockwise, the square counterclockwise: the normal
    vectors of the circle point towards its center, so they do not all point
    outwards. *)
Theorem C63_circle_outward_refuted : forall (K : ofops), ofield_laws K -> forall sq : K -> K, sqrt_laws sq ->
  forall (sn cs : nat -> nat -> K) n r, 3 <= n -> trig_laws sn cs n -> r <> f0 ->
  exists m x e, new_circle_curve2d sq sn cs n r = Ok m /\ curve_is m n n x e /\
    normals_inward m n x /\ ~ normals_outward m n x.
Proof.
  intros K L sq S sn cs n r Hn T Hr. destruct (rok_inv _ _ (run_circle L sq S sn cs n r Hn)) as (m & E & H1 & H2).
  exists m. eexists. exists (cyc n). split; [exact E|]. split; [exact H1|].
  match goal with |- normals_inward m n ?x /\ _ => assert (I : normals_inward m n x) end.
  { apply (inward_turn L); [exact H2|]. intros i Hi. apply (circle_turn L); assumption. }
  split; [exact I|]. destruct I as (nv & Tn & I). intros (nv' & Tn' & O).
  specialize (I 0 ltac:(lia)). specialize (O 0 ltac:(lia)).
  assert (Q : forall h, h < 2 -> nv' 0 h = nv 0 h).
  { intros h Hh. pose proof (tget _ _ _ _ 0 h Tn ltac:(lia) Hh) as G1.
    pose proof (tget _ _ _ _ 0 h Tn' ltac:(lia) Hh) as G2. congruence. }
  rewrite !Q in O by lia. pose proof (ol_trans K L _ _ _ I O) as C. rewrite (ol_irrefl K L) in C. discriminate C.
Qed.
Print Assumptions C63_circle_outward_refuted.

(** ** The hypotheses can be met *)
Delimit Scope R_scope with Re.
Definition rsin (i m : nat) : RO := sin (2 * PI * INR i / INR m)%Re.
Definition rcos (i m : nat) : RO := cos (2 * PI * INR i / INR m)%Re.
Lemma real_trig n : 3 <= n -> trig_laws rsin rcos n.
Proof.
  intros Hn. assert (P : (3 <= INR n)%Re) by (apply le_INR in Hn; cbn in Hn; lra).
  pose proof PI_RGT_0 as P0.
  assert (A : (2 * PI * INR 1 / INR n = 2 * PI / INR n)%Re) by (cbn; field; lra).
  split.
  - apply R_ltb_iff. unfold rsin. rewrite A. apply sin_gt_0.
    + apply Rdiv_lt_0_compat; lra.
    + apply (Rmult_lt_reg_r (INR n)); [lra|]. unfold Rdiv. rewrite Rmult_assoc, Rinv_l by lra. nra.
  - intros i Hi. split.
    + apply sin2_cos2.
    + cbv zeta. unfold rsin, rcos. rewrite A.
      change ((sin (2 * PI * INR i / INR n) * cos (2 * PI * INR (if i + 1 =? n then 0 else i + 1) / INR n) -
               cos (2 * PI * INR i / INR n) * sin (2 * PI * INR (if i + 1 =? n then 0 else i + 1) / INR n))%Re =
              (- sin (2 * PI / INR n))%Re).
      rewrite <- sin_minus, <- sin_neg. destruct (Nat.eqb_spec (i + 1) n) as [E|N].
      * assert (Ei : (INR i = INR n - 1)%Re) by (rewrite <- E, plus_INR; cbn; ring).
        rewrite Ei. cbn [INR].
        replace (2 * PI * (INR n - 1) / INR n - 2 * PI * 0 / INR n)%Re with (- (2 * PI / INR n) + 2 * INR 1 * PI)%Re
          by (cbn; field; lra).
        apply sin_period.
      * f_equal. rewrite plus_INR. cbn [INR]. field. lra.
Qed.
Example C63_hyps : ofield_laws RO /\ sqrt_laws (K:=RO) sqrt /\ (forall n, 3 <= n -> trig_laws rsin rcos n) /\
  (exists m : curve2d RO, new_circle_curve2d (K:=RO) sqrt rsin rcos 5 1%Re = Ok m) /\
  (exists m : curve2d RO, new_square_curve2d (K:=RO) sqrt 7 1%Re = Ok m) /\
  (exists m : curve2d RO, new_star_curve2d (K:=RO) sqrt rsin rcos 48 1%Re = Ok m).
Proof.
  split; [apply RO_laws|]. split; [apply RO_sqrt|]. split; [apply real_trig|]. split; [|split].
  - destruct (C63_circle RO RO_laws sqrt RO_sqrt rsin rcos 5 1%Re ltac:(lia) (real_trig 5 ltac:(lia))) as (m & _ & _ & E & _).
    exists m. exact E.
  - destruct (C63_square RO RO_laws sqrt RO_sqrt 7 1%Re ltac:(lia)) as (m & _ & _ & E & _). exists m. exact E.
  - destruct (C63_star RO RO_laws sqrt RO_sqrt rsin rcos 3 1%Re ltac:(lia)) as (m & _ & _ & E & _). exists m. exact E.
Qed.
