(** * Finite elements: the error norm *)
From Coq Require Import Arith Lia List Bool Ring.
From Verif Require Import Fld Ord Prog Arr HmSpec Tri2d Tri2dSpec Tri2dP Tri2dP2 Tri2dP3 Fem FemSpec FemP FemP2 FemP3 FemP4 Fem2 Fem2Spec.
Import ListNotations.
Local Open Scope nat_scope.

Section Norm.
  Context {K : ofops} (L : ofield_laws K) (dc : tri2dp1 K) (w : mview K) (num : nat -> nat).
  Context (Hs : space_is dc w num) (Hok : mesh_ok w).
  Context (area : nat -> K) (HA : areas w area).
  Local Notation RL := (fl_ring K (ol_field K L)).
  Add Ring Kring_fem9 : (rl_ring K (fl_ring K (ol_field K L))).

  Lemma lin_mid_ends (u : nat -> K) e : e < mE w ->
    lin_mid w u e = (half K * u (fst (me w e)) + half K * u (snd (me w e)))%F.
  Proof.
    intros He. destruct (proj1 Hok e He) as (A & B & N). unfold lin_mid.
    transitivity (sum (mV w) (fun v => (if v =? fst (me w e) then half K * u v else f0) +
                                       (if v =? snd (me w e) then half K * u v else f0)))%F.
    - apply sum_ext. intros v _. unfold hat_mid. rewrite (Nat.eqb_sym (fst _)), (Nat.eqb_sym (snd _)).
      destruct (Nat.eqb_spec v (fst (me w e))), (Nat.eqb_spec v (snd (me w e))); cbn [orb]; try congruence; ring.
    - rewrite (sum_add RL). rewrite (sum_single RL (mV w) (fst (me w e))), (sum_single RL (mV w) (snd (me w e))); try assumption.
      + rewrite !Nat.eqb_refl. reflexivity.
      + intros i _ Ni. destruct (Nat.eqb_spec i (snd (me w e))); [congruence|reflexivity].
      + intros i _ Ni. destruct (Nat.eqb_spec i (fst (me w e))); [congruence|reflexivity].
  Qed.

  Context (b bf : option (arr K)) (c cf : nat -> K).
  Context (Hb : coeffs b (p1_ndof dc) c) (Hbf : coeffs bf (p1_nfix dc) cf).
  Definition vval (v : nat) : K := if isfree w v then c (num v) else cf (num v).

  Lemma end_run v x : v < mV w -> add_end dc b bf v x = Ok (x + half K * vval v)%F.
  Proof.
    intros Hv. pose proof Hs as (_ & Hd & Hi & _). unfold add_end, vval. rewrite (aval_get _ _ _ _ Hd) by exact Hv.
    cbn [rbind]. fold (isfree w v). destruct (isfree w v) eqn:E.
    - destruct b as [b'|]; cbn [coeffs] in Hb.
      + rewrite (aval_get _ _ _ _ Hi) by exact Hv. cbn [rbind].
        pose proof (num_free dc w num Hs v Hv E) as N. rewrite (proj2 (Nat.ltb_lt _ _) N). cbn [rassert rbind].
        rewrite (aval_get _ _ _ _ Hb) by exact N. reflexivity.
      + rewrite Hb. f_equal. ring.
    - destruct bf as [b'|]; cbn [coeffs] in Hbf.
      + rewrite (aval_get _ _ _ _ Hi) by exact Hv. cbn [rbind].
        pose proof (num_fix dc w num Hs v Hv E) as N. rewrite (proj2 (Nat.ltb_lt _ _) N). cbn [rassert rbind].
        rewrite (aval_get _ _ _ _ Hbf) by exact N. reflexivity.
      + rewrite Hbf. f_equal. ring.
  Qed.
  Lemma dim_run (o : option (arr K)) n g : coeffs o n g -> has_dim o n = true.
  Proof. destruct o as [a|]; [|reflexivity]. intros [H _]. cbn. rewrite H. apply Nat.eqb_refl. Qed.

  Definition err (f : option (K * K -> K)) (e : nat) : K :=
    match f with Some f => (lin_mid w vval e - f (edge_mid w e))%F | None => lin_mid w vval e end.

  Lemma run_norml2 sq f : norml2_tri2dp1 sq dc f b bf = Ok (sq (midpoint_rule w area (fun e => err f e * err f e)%F)).
  Proof.
    pose proof Hs as (Hm & _). pose proof Hm as (EV & EE & ET & Ax & Ae & At & _).
    set (T := fun j => (area j / lit3 * (err f (mt w j 0) * err f (mt w j 0) + err f (mt w j 1) * err f (mt w j 1) + err f (mt w j 2) * err f (mt w j 2)))%F).
    assert (G : rok (norml2_tri2dp1 sq dc f b bf) (fun n => n = sq (sum (mT w) T))).
    { unfold norml2_tri2dp1. rewrite (dim_run b _ c Hb), (dim_run bf _ cf Hbf). cbn [rassert rbind]. rewrite ET.
      apply rok_bind. apply (rok_for (fun k n => n = sum k T)); [reflexivity| |change (0 + mT w) with (mT w); intros n ->; reflexivity].
      intros k n Hk ->. destruct (proj1 (proj2 Hok) k ltac:(lia)) as (v0 & v1 & v2 & C).
      rewrite (getvertices_run _ _ Hm k v0 v1 v2 ltac:(lia) C). cbn [rbind at3 fst snd].
      destruct (corners_lt w Hok _ _ _ _ C) as (B0 & B1 & B2).
      rewrite !(aval_get _ _ _ _ Ax) by assumption. cbn [rbind]. cbv zeta.
      rewrite (aval_get _ _ _ _ At) by lia. cbn [rbind].
      assert (R : forall t0 j, j < 3 ->
        (let* e := aget (t2_e (p1_t2 dc)) (tedge (mt w k 0, mt w k 1, mt w k 2) j) in
         let* val := add_end dc b bf (fst e) f0 in
         let* p := aget (t2_x (p1_t2 dc)) (fst e) in
         let* val := add_end dc b bf (snd e) val in
         let* q := aget (t2_x (p1_t2 dc)) (snd e) in
         Ok (t0 + match f with Some f => (val - f (half K * fst p + half K * fst q, half K * snd p + half K * snd q)%F)%F | None => val end *
                  match f with Some f => (val - f (half K * fst p + half K * fst q, half K * snd p + half K * snd q)%F)%F | None => val end)%F) =
        Ok (t0 + err f (mt w k j) * err f (mt w k j))%F).
      { intros t0 j Hj. replace (tedge (mt w k 0, mt w k 1, mt w k 2) j) with (mt w k j)
          by (destruct j as [|[|[|j]]]; try lia; reflexivity).
        assert (He : mt w k j < mE w) by (apply C; exact Hj). destruct (proj1 Hok _ He) as (A & B & _).
        rewrite (aval_get _ _ _ _ Ae) by exact He. cbn [rbind].
        rewrite end_run by exact A. cbn [rbind]. rewrite (aval_get _ _ _ _ Ax) by exact A. cbn [rbind].
        rewrite end_run by exact B. cbn [rbind]. rewrite (aval_get _ _ _ _ Ax) by exact B. cbn [rbind].
        unfold err. rewrite lin_mid_ends by exact He.
        assert (M : forall p q : K * K, (half K * fst p + half K * fst q, half K * snd p + half K * snd q)%F = mid p q)
          by (intros p q; unfold mid; f_equal; ring).
        rewrite M. fold (edge_mid w (mt w k j)). f_equal. destruct f; ring. }
      cbn [rfor]. do 3 (rewrite R by lia; cbn [rbind]). cbn [rok sum].
      destruct (HA k v0 v1 v2 ltac:(lia) C) as [P Q]. cbv zeta in Q.
      match goal with |- context [rabs ?D] => replace (rabs D) with (area k + area k)%F end.
      2: { symmetry. apply (rabs_is L); [apply (double_nn L); exact P|].
           unfold det in Q. destruct Q as [-> | ->]; [left|right]; ring. }
      match goal with |- (?a + ?b)%F = _ => assert (Y : b = T k); [|rewrite Y; reflexivity] end.
      unfold T, fdiv.
      transitivity ((half K + half K) * (area k * finv lit3 * (err f (mt w k 0) * err f (mt w k 0) + err f (mt w k 1) * err f (mt w k 1) + err f (mt w k 2) * err f (mt w k 2))))%F; [ring|].
      rewrite (half_two (ol_field K L) (lit2_ne L)). ring. }
    apply rok_inv in G as (n & -> & ->). reflexivity.
  Qed.
End Norm.
