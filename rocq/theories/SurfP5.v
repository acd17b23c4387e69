(** * Surface meshes: normal vectors over an ordered field *)
From Coq Require Import Arith Lia List Bool Ring.
From Verif Require Import Fld Ord Prog Arr HmSpec Tri2d Tri2dSpec Tri2dP Tri2dP2 Surf SurfSpec SurfP SurfP2 SurfP3 SurfP4.
Import ListNotations.
Local Open Scope nat_scope.

Section Normals.
  Context {K : ofops} (L : ofield_laws K).
  Add Ring surf_ring5 : (rl_ring K (fl_ring K (ol_field K L))).

  Lemma sq_pos (x : K) : x <> f0 -> flt f0 (x * x)%F = true.
  Proof.
    intros N. destruct (ol_total K L _ _ N) as [H|H].
    - apply fopp_pos in H; [|exact L]. replace (x * x)%F with (fopp x * fopp x)%F by ring. apply (ol_mul K L); exact H.
    - apply (ol_mul K L); exact H.
  Qed.
  Lemma lt_add_nn (x y : K) : flt f0 x = true -> fle f0 y -> flt f0 (x + y)%F = true.
  Proof.
    intros Hx Hy. destruct (fle_cases L _ _ Hy) as [<-|H].
    - replace (x + f0)%F with x by ring. exact Hx.
    - apply (flt_add_pos L); assumption.
  Qed.

  Lemma len2_pos (w : sview K) i : ~ degenerate w i -> flt f0 (len2 w i) = true.
  Proof.
    intros H. unfold len2.
    pose proof (fsq_nn L (cross w i 0)) as N0. pose proof (fsq_nn L (cross w i 1)) as N1. pose proof (fsq_nn L (cross w i 2)) as N2.
    destruct (fle_cases L _ _ (fle_add_nn L _ _ (fle_add_nn L _ _ N0 N1) N2)) as [E|E]; [|exact E].
    exfalso. apply H. intros c Hc.
    destruct (feqb (cross w i c) f0) eqn:Q; [apply (fl_eqb K (ol_field K L)); exact Q|].
    assert (N : cross w i c <> f0) by (intros Q'; apply (fl_eqb K (ol_field K L)) in Q'; congruence).
    pose proof (sq_pos _ N) as P.
    assert (flt f0 (cross w i 0 * cross w i 0 + cross w i 1 * cross w i 1 + cross w i 2 * cross w i 2)%F = true) as C.
    { destruct c as [|[|[|c]]]; try lia.
      - apply lt_add_nn; [apply lt_add_nn|]; assumption.
      - apply lt_add_nn; [|assumption].
        replace (cross w i 0 * cross w i 0 + cross w i 1 * cross w i 1)%F
          with (cross w i 1 * cross w i 1 + cross w i 0 * cross w i 0)%F by ring. apply lt_add_nn; assumption.
      - replace (cross w i 0 * cross w i 0 + cross w i 1 * cross w i 1 + cross w i 2 * cross w i 2)%F
          with (cross w i 2 * cross w i 2 + (cross w i 0 * cross w i 0 + cross w i 1 * cross w i 1))%F by ring.
        apply lt_add_nn; [assumption|apply (fle_add_nn L); assumption]. }
    unfold f0 in *. rewrite <- E in C. rewrite (ol_irrefl K L) in C. discriminate C.
  Qed.

  Lemma normals_prepared (sq : K -> K) (w : sview K) : sqrt_laws sq -> normals_fit w (unit_n sq w) (gram sq w).
  Proof.
    intros S i Hi Hd. pose proof (len2_pos w i Hd) as P.
    destruct (S (len2 w i) (olt_le (ofield_order L) _ _ P)) as [G1 G2].
    unfold gram, unit_n. set (g := sq (len2 w i)) in *.
    assert (G0 : flt f0 g = true).
    { destruct (fle_cases L _ _ G1) as [E|E]; [|exact E]. exfalso. rewrite <- E in G2.
      replace (f0 * f0)%F with (@f0 K) in G2 by ring. rewrite <- G2, (ol_irrefl K L) in P. discriminate P. }
    assert (N : g <> f0) by (apply not_eq_sym, (flt_ne L); exact G0).
    assert (C : forall x : K, (g * (x / g))%F = x).
    { intros x. unfold fdiv. transitivity (x * (g * finv g))%F; [ring|].
      rewrite (finv_r (ol_field K L)) by exact N. ring. }
    split; [exact G0|]. split; [exact G2|]. split; [intros c _; apply C|].
    set (c0 := cross w i 0) in *. set (c1 := cross w i 1) in *. set (c2 := cross w i 2) in *.
    unfold fdiv. transitivity (finv g * finv g * (c0 * c0 + c1 * c1 + c2 * c2))%F; [ring|].
    change (c0 * c0 + c1 * c1 + c2 * c2)%F with (len2 w i). rewrite <- G2.
    transitivity ((finv g * g) * (finv g * g))%F; [ring|]. rewrite (fl_inv K (ol_field K L)) by exact N. ring.
  Qed.

  Lemma sq_eq (x y : K) : flt f0 x = true -> flt f0 y = true -> (x * x)%F = (y * y)%F -> x = y.
  Proof.
    intros Hx Hy E.
    destruct (feqb (x - y)%F f0) eqn:Q.
    - apply (fl_eqb K (ol_field K L)) in Q. transitivity ((x - y) + y)%F; [ring|]. rewrite Q. ring.
    - exfalso. assert (N : (x + y)%F <> f0) by (apply not_eq_sym, (flt_ne L), (flt_add_pos L); assumption).
      assert (Z : (x - y)%F = f0).
      { transitivity (finv (x + y) * (x + y) * (x - y))%F.
        - rewrite (fl_inv K (ol_field K L)) by exact N. ring.
        - transitivity (finv (x + y) * (x * x - y * y))%F; [ring|]. rewrite E. ring. }
      apply (fl_eqb K (ol_field K L)) in Z. congruence.
  Qed.

  Lemma four_pos (x : K) : flt f0 x = true -> flt f0 (four x) = true.
  Proof. intros H. unfold four. apply (flt_add_pos L); apply (flt_add_pos L); exact H. Qed.

  Lemma two_ne : (1 + 1)%F <> (0%F : K).
  Proof. apply not_eq_sym, (flt_ne L). apply (f2_pos L). Qed.

  Lemma four_ne (x : K) : four x = f0 -> x = f0.
  Proof.
    intros H. apply (half_cancel (ol_field K L) two_ne). apply (half_cancel (ol_field K L) two_ne).
    unfold four in H. rewrite H. ring.
  Qed.

  (** The triangles of the refinement have the old normal vector and a quarter
      of the area. *)
  Lemma fine_normals (w : sview K) n g n' g' t q : surf_ok w -> t < vT w -> q < 4 -> ~ degenerate w t ->
    normals_fit w n g -> normals_fit (fine w) n' g' ->
    g t = four (g' (4 * t + q)) /\ forall c, c < 3 -> n' (4 * t + q) c = n t c.
  Proof.
    intros Hw Ht Hq Hd HN HN'.
    pose proof (fun c => fine_cross (ol_field K L) two_ne w Hw t q c Ht Hq) as F.
    assert (Hd' : ~ degenerate (fine w) (4 * t + q)).
    { intros D. apply Hd. intros c Hc. rewrite F, (D c Hc). unfold four. ring. }
    destruct (HN t Ht Hd) as (G1 & G2 & G3 & _).
    destruct (HN' (4 * t + q) ltac:(cbn [fine vT]; lia) Hd') as (P1 & P2 & P3 & _).
    assert (E : g t = four (g' (4 * t + q))).
    { apply sq_eq; [exact G1|apply four_pos; exact P1|]. rewrite G2. unfold len2. rewrite !F.
      transitivity (four (four (len2 (fine w) (4 * t + q)))); [unfold len2, four; ring|].
      rewrite <- P2. unfold four. ring. }
    split; [exact E|]. intros c Hc.
    assert (N : g t <> f0) by (apply not_eq_sym, (flt_ne L); exact G1).
    assert (Z : (g t * n' (4 * t + q)%nat c)%F = (g t * n t c)%F).
    { rewrite (G3 c Hc), F, <- (P3 c Hc), E. unfold four. ring. }
    transitivity (finv (g t) * (g t * n' (4 * t + q)%nat c))%F.
    - transitivity ((finv (g t) * g t) * n' (4 * t + q)%nat c)%F; [|ring].
      rewrite (fl_inv K (ol_field K L)) by exact N. ring.
    - rewrite Z. transitivity ((finv (g t) * g t) * n t c)%F; [ring|].
      rewrite (fl_inv K (ol_field K L)) by exact N. ring.
  Qed.
End Normals.
