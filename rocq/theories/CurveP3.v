(** * Polygons in the plane: directions of the normal vectors *)
From Coq Require Import Arith Lia List Bool Ring.
From Verif Require Import Fld Ord Prog Arr HmSpec Tri2d Tri2dP Surf SurfSpec SurfP SurfP2 SurfP5 Curve CurveSpec CurveP CurveP2.
Import ListNotations.
Local Open Scope nat_scope.

Section Direction.
  Context {K : ofops} (L : ofield_laws K).
  Add Ring curve_ring3 : (rl_ring K (fl_ring K (ol_field K L))).

  Definition succ_of (n i : nat) : nat := if i + 1 =? n then 0 else i + 1.
  Definition turn (x : nat -> nat -> K) (i i' : nat) : K := (x i 0%nat * x i' 1%nat - x i 1%nat * x i' 0%nat)%F.

  Lemma pos_factor (a b : K) : flt f0 a = true -> flt f0 (a * b)%F = true -> flt f0 b = true.
  Proof.
    intros Ha H. apply (flt_mul_pos L a f0 b Ha). replace (fmul a f0) with (@f0 K) by ring. exact H.
  Qed.
  Lemma neg_factor (a b : K) : flt f0 a = true -> flt (a * b)%F f0 = true -> flt b f0 = true.
  Proof.
    intros Ha H. apply (flt_mul_pos L a b f0 Ha). replace (fmul a f0) with (@f0 K) by ring. exact H.
  Qed.

  Lemma feq_dec (a b : K) : a = b \/ a <> b.
  Proof.
    destruct (feqb a b) eqn:E; [left; apply (fl_eqb K (ol_field K L)); exact E|right].
    intros Q. apply (fl_eqb K (ol_field K L)) in Q. congruence.
  Qed.

  (** The product of length and normal vector tells the direction. *)
  Lemma normal_turn (m : curve2d K) n x : curve_normals m n x (cyc n) -> 
    exists nv g, table (c2_n m) 2 n nv /\ forall i, i < n -> turn x i (succ_of n i) <> f0 ->
      flt f0 (g i) = true /\
      (g i * (nv i 0%nat * x i 0%nat + nv i 1%nat * x i 1%nat))%F = turn x i (succ_of n i).
  Proof.
    intros (nv & g & Hn & _ & H). exists nv, g. split; [exact Hn|]. intros i Hi Ht.
    specialize (H i Hi). destruct (cyc_closed n i Hi) as [E0 E1]. rewrite E0, E1 in H.
    change (if i + 1 =? n then 0 else i + 1) with (succ_of n i) in H. set (i' := succ_of n i) in *. cbv zeta in H.
    set (dx := (x i' 0%nat - x i 0%nat)%F) in *. set (dy := (x i' 1%nat - x i 1%nat)%F) in *.
    assert (T : turn x i i' = (dy * x i 0%nat - dx * x i 1%nat)%F) by (unfold turn, dx, dy; ring).
    assert (D : dx <> f0 \/ dy <> f0).
    { destruct (feq_dec dx f0) as [Ex|N]; [|left; exact N]. destruct (feq_dec dy f0) as [Ey|N]; [|right; exact N].
      exfalso. apply Ht. rewrite T, Ex, Ey. ring. }
    destruct (H D) as (G & _ & N0 & N1 & _). split; [exact G|]. rewrite T, <- N0.
    transitivity (g i * nv i 0%nat * x i 0%nat + g i * nv i 1%nat * x i 1%nat)%F; [ring|]. rewrite N1. ring.
  Qed.

  Lemma outward_turn m n x : curve_normals m n x (cyc n) ->
    (forall i, i < n -> flt f0 (turn x i (succ_of n i)) = true) -> normals_outward m n x.
  Proof.
    intros H Ht. destruct (normal_turn m n x H) as (nv & g & Hn & Hg). exists nv. split; [exact Hn|].
    intros i Hi. destruct (Hg i Hi (not_eq_sym (flt_ne L _ _ (Ht i Hi)))) as [G E].
    apply (pos_factor (g i)); [exact G|]. rewrite E. apply Ht. exact Hi.
  Qed.
  Lemma inward_turn m n x : curve_normals m n x (cyc n) ->
    (forall i, i < n -> flt (turn x i (succ_of n i)) f0 = true) -> normals_inward m n x.
  Proof.
    intros H Ht. destruct (normal_turn m n x H) as (nv & g & Hn & Hg). exists nv. split; [exact Hn|].
    intros i Hi. destruct (Hg i Hi (flt_ne L _ _ (Ht i Hi))) as [G E].
    apply (neg_factor (g i)); [exact G|]. rewrite E. apply Ht. exact Hi.
  Qed.

  (** ** Equal steps between corners *)
  Lemma section_of (q : nat -> nat) c i : q 0 = 0 -> i < q c -> exists k, k < c /\ q k <= i < q (S k).
  Proof.
    intros Q0. induction c as [|c IH]; intros H; [lia|].
    destruct (Nat.lt_ge_cases i (q c)) as [Hi|Hi].
    - destruct (IH Hi) as (k & Hk & Hq). exists k. split; [lia|exact Hq].
    - exists c. split; [lia|]. lia.
  Qed.

  Lemma steps_turn n c q (p x : nat -> nat -> K) : equal_steps n c q p x -> forall i, i < n ->
    exists k D, k < c /\ flt f0 D = true /\ (D * turn x i (succ_of n i))%F = turn p k (succ_of c k).
  Proof.
    intros (Q0 & Qc & H) i Hi. rewrite <- Qc in Hi. destruct (section_of q c i Q0 Hi) as (k & Hk & Hq).
    destruct (H k Hk) as (Hlt & Hcor & Hst). set (D := (fnat (q (S k) - q k) : K)) in *.
    assert (PD : flt f0 D = true) by (apply (fnat_pos L); lia).
    exists k, D. split; [exact Hk|]. split; [exact PD|].
    set (j := i - q k). assert (Ei : i = q k + j) by (unfold j; lia).
    assert (A : forall h, h < 2 -> (D * (x i h - p k h))%F = (fnat j * (p (succ_of c k) h - p k h))%F).
    { intros h Hh. rewrite Ei. apply (Hst j h Hh). lia. }
    assert (B : forall h, h < 2 -> (D * (x (succ_of n i) h - p k h))%F = (fnat (S j) * (p (succ_of c k) h - p k h))%F).
    { intros h Hh. unfold succ_of at 1. destruct (Nat.eqb_spec (i + 1) n) as [E|N].
      - assert (Ek : S k = c).
        { destruct (Nat.eq_dec (S k) c) as [E'|N']; [exact E'|]. exfalso. destruct (H (S k) ltac:(lia)) as (H1 & _).
          assert (M : forall t, S k < t -> t <= c -> q (S k) < q t).
          { induction t as [|t IHt]; [lia|]. intros A1 A2. destruct (H t ltac:(lia)) as (H2 & _).
            destruct (Nat.eq_dec (S k) t) as [<-|]; [exact H2|]. specialize (IHt ltac:(lia) ltac:(lia)). lia. }
          specialize (M c ltac:(lia) ltac:(lia)). lia. }
        destruct (H 0 ltac:(lia)) as (_ & C0 & _). rewrite Q0 in C0. rewrite (C0 h Hh).
        replace (succ_of c k) with 0 by (unfold succ_of; destruct (Nat.eqb_spec (k + 1) c); lia).
        replace (S j) with (q (S k) - q k) by (rewrite Ek; lia). reflexivity.
      - destruct (Nat.eq_dec (i + 1) (q (S k))) as [E'|N'].
        + assert (Nk : S k <> c) by (intros Ek; rewrite Ek in E'; lia).
          destruct (H (S k) ltac:(lia)) as (_ & C1 & _). rewrite E', (C1 h Hh).
          replace (succ_of c k) with (S k) by (unfold succ_of; destruct (Nat.eqb_spec (k + 1) c); lia).
          replace (S j) with (q (S k) - q k) by lia. reflexivity.
        + replace (i + 1) with (q k + S j) by lia. apply (Hst (S j) h Hh). lia. }
    unfold turn. set (k' := succ_of c k) in *. set (i' := succ_of n i) in *.
    pose proof (A 0 ltac:(lia)) as A0. pose proof (A 1 ltac:(lia)) as A1.
    pose proof (B 0 ltac:(lia)) as B0. pose proof (B 1 ltac:(lia)) as B1. cbn [fnat] in B0, B1.
    set (J := (fnat j : K)) in *.
    set (x0 := x i 0) in *. set (x1 := x i 1) in *. set (y0 := x i' 0) in *. set (y1 := x i' 1) in *.
    set (p0 := p k 0) in *. set (p1 := p k 1) in *. set (r0 := p k' 0) in *. set (r1 := p k' 1) in *.
    assert (ND : D <> f0) by (apply not_eq_sym, (flt_ne L); exact PD).
    assert (Cn : forall u v : K, (D * u)%F = (D * v)%F -> u = v).
    { intros u v E. transitivity (finv D * D * u)%F; [rewrite (fl_inv K (ol_field K L)) by exact ND; ring|].
      transitivity (finv D * (D * u))%F; [ring|]. rewrite E.
      transitivity (finv D * D * v)%F; [ring|]. rewrite (fl_inv K (ol_field K L)) by exact ND. ring. }
    assert (X0 : (D * x0)%F = (D * p0 + J * (r0 - p0))%F) by (rewrite <- A0; ring).
    assert (X1 : (D * x1)%F = (D * p1 + J * (r1 - p1))%F) by (rewrite <- A1; ring).
    assert (Y0 : (D * y0)%F = (D * p0 + (J + f1) * (r0 - p0))%F) by (rewrite <- B0; ring).
    assert (Y1 : (D * y1)%F = (D * p1 + (J + f1) * (r1 - p1))%F) by (rewrite <- B1; ring).
    apply Cn. transitivity ((D * x0) * (D * y1) - (D * x1) * (D * y0))%F; [ring|].
    rewrite X0, X1, Y0, Y1. ring.
  Qed.

  Lemma square_turn n (a : K) i : 4 <= n -> a <> f0 -> i < n ->
    flt f0 (turn (square_x n a) i (succ_of n i)) = true.
  Proof.
    intros Hn Ha Hi. destruct (steps_turn n 4 _ _ _ (square_steps L n a Hn) i Hi) as (k & D & Hk & PD & E).
    apply (pos_factor D); [exact PD|]. rewrite E.
    assert (S : turn (square_corner a) k (succ_of 4 k) = (a * a + a * a)%F).
    { destruct k as [|[|[|[|k]]]]; [| | | |lia].
      - change (turn (square_corner a) 0 (succ_of 4 0)) with (a * a - a * (- a))%F. ring.
      - change (turn (square_corner a) 1 (succ_of 4 1)) with ((- a) * (- a) - a * (- a))%F. ring.
      - change (turn (square_corner a) 2 (succ_of 4 2)) with ((- a) * (- a) - (- a) * a)%F. ring.
      - change (turn (square_corner a) 3 (succ_of 4 3)) with (a * a - (- a) * a)%F. ring. }
    rewrite S. assert (P : flt f0 (a * a)%F = true).
    { destruct (fle_cases L _ _ (fsq_nn L a)) as [Q|Q]; [|exact Q]. exfalso. apply Ha.
      transitivity (finv a * a * a)%F; [rewrite (fl_inv K (ol_field K L)) by exact Ha; ring|].
      transitivity (finv a * (a * a))%F; [ring|]. change (fmul a a) with (a * a)%F in Q. rewrite <- Q. ring. }
    apply (flt_add_pos L); exact P.
  Qed.

  Lemma circle_turn (sn cs : nat -> nat -> K) n (r : K) i : trig_laws sn cs n -> r <> f0 -> i < n ->
    flt (turn (fun i h => if h =? 0 then (r * sn i n)%F else (r * cs i n)%F) i (succ_of n i)) f0 = true.
  Proof.
    intros [P H] Hr Hi. destruct (H i Hi) as [_ E]. cbv zeta in E.
    change (if i + 1 =? n then 0 else i + 1) with (succ_of n i) in E. set (i' := succ_of n i) in *.
    assert (T : turn (fun i h => if h =? 0 then (r * sn i n)%F else (r * cs i n)%F) i i' = (- (r * r * sn 1%nat n))%F).
    { unfold turn. change (0 =? 0) with true. change (1 =? 0) with false. cbv iota.
      transitivity (r * r * (sn i n * cs i' n - cs i n * sn i' n))%F; [ring|]. rewrite E. ring. }
    rewrite T. apply (flt_sub L).
    replace (fsub f0 (- (r * r * sn 1%nat n))%F) with (r * r * sn 1%nat n)%F by ring.
    apply (ol_mul K L); [|exact P].
    destruct (fle_cases L _ _ (fsq_nn L r)) as [Q|Q]; [|exact Q]. exfalso. apply Hr.
    transitivity (finv r * r * r)%F; [rewrite (fl_inv K (ol_field K L)) by exact Hr; ring|].
    transitivity (finv r * (r * r))%F; [ring|]. change (fmul r r) with (r * r)%F in Q. rewrite <- Q. ring.
  Qed.

  Lemma circle_radius (r s c : K) : (s * s + c * c)%F = f1 -> (r * s * (r * s) + r * c * (r * c))%F = (r * r)%F.
  Proof. intros E. transitivity (r * r * (s * s + c * c))%F; [ring|]. rewrite E. ring. Qed.
  Lemma half_of (a : K) : (a * (f1 / f2))%F = (a / f2)%F.
  Proof. unfold fdiv. ring. Qed.
  Lemma half_ne (a : K) : a <> f0 -> (a / f2)%F <> f0.
  Proof.
    intros Ha E. apply Ha. rewrite <- (half_def L a). change (fdiv a f2) with (a / f2)%F. rewrite E. ring.
  Qed.
End Direction.
