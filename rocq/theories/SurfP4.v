(** * Surface meshes: the refined mesh *)
From Coq Require Import Arith ZArith Lia List Bool Ring.
From Verif Require Import Fld Prog Arr HmSpec Tri2d Tri2dSpec Tri2dP Tri2dP2 Surf SurfSpec SurfP SurfP2 SurfP3.
Import ListNotations.
Local Open Scope nat_scope.

Section Topology.
  Context {K : fops} (w : sview K) (Hw : surf_ok w).
  Notation V := (vV w). Notation E := (vE w). Notation T := (vT w).

  Lemma vs_lt t j : t < T -> j < 3 -> vs w t j < E.
  Proof. destruct Hw as [(_ & _ & H & _) _]. auto. Qed.
  Lemma vt_lt t j : t < T -> j < 3 -> vt w t j < V.
  Proof. destruct Hw as [(_ & H & _) _]. auto. Qed.

  (** Different sides of a triangle are different edges. *)
  Lemma sides_ne t j : t < T -> j < 3 -> vs w t (nx j) <> vs w t j.
  Proof.
    intros Ht Hj Q. pose proof Hw as [(_ & _ & _ & HD) HN].
    pose proof (HD t (nx j) Ht (nx_lt j)) as A. pose proof (HD t j Ht Hj) as B.
    rewrite Q, (nx_3 j Hj) in A. destruct (HN t Ht) as (N1 & N2 & N3).
    assert (N : vt w t (nx j) <> vt w t j /\ vt w t (nx (nx j)) <> vt w t j).
    { destruct j as [|[|[|j]]]; cbn [nx]; try lia; auto. }
    destruct N as [M1 M2]. destruct A as [[A0 A1]|[A0 A1]], B as [[B0 B1]|[B0 B1]].
    - rewrite A1 in B1. auto.
    - rewrite A1 in B1. auto.
    - rewrite A0 in B0. auto.
    - rewrite A0 in B0. auto.
  Qed.

  Lemma tri_split i : i < 4 * T -> exists t q, t < T /\ q < 4 /\ i = 4 * t + q.
  Proof. intros H. destruct (split_mul 4 T i ltac:(lia) H) as (t & q & -> & Hq & Ht). eauto. Qed.

  Lemma ft_lt i j : i < 4 * T -> j < 3 -> ft w i j < V + E.
  Proof.
    intros Hi Hj. destruct (tri_split i Hi) as (t & q & Ht & Hq & ->).
    destruct (Nat.eq_dec q 3) as [->|N].
    - rewrite ft_mid. pose proof (vs_lt t (nx (nx j)) Ht (nx_lt _)). lia.
    - rewrite ft_corner by lia. destruct j as [|[|j]].
      + pose proof (vs_lt t (nx q) Ht (nx_lt _)). lia.
      + pose proof (vs_lt t q Ht ltac:(lia)). lia.
      + pose proof (vt_lt t (nx (nx q)) Ht (nx_lt _)). lia.
  Qed.

  Lemma hv_ends k a b : k < E -> a <> b -> ends w k a b ->
    ends (fine w) (hv w k b) (V + k) b /\ hv w k b <> hv w k a.
  Proof.
    intros Hk N D. unfold ends, hv in *. cbn [fine ve].
    destruct D as [[A B]|[A B]].
    - rewrite B, Nat.eqb_refl. split; [left; rewrite !fe_half by lia; auto|].
      destruct (Nat.eqb_spec b a); [congruence|lia].
    - rewrite B, Nat.eqb_refl. destruct (Nat.eqb_spec a b); [congruence|].
      split; [right; rewrite !fe_half by lia; auto|lia].
  Qed.

  Lemma fine_ok : surf_ok (fine w).
  Proof.
    pose proof Hw as [(HE & HT & HS & HD) HN].
    split; [split; [|split; [|split]]|]; cbn [fine vV vE vT vt ve vs].
    - intros k h Hk Hh. destruct (Nat.lt_ge_cases k (2 * E)) as [L|L].
      + destruct (split_mul 2 E k ltac:(lia) L) as (p & o & -> & Ho & Hp). rewrite fe_half by assumption.
        pose proof (HE p 0 Hp ltac:(lia)). pose proof (HE p 1 Hp ltac:(lia)). destruct o, h; lia.
      + destruct (split_mul 3 T (k - 2 * E) ltac:(lia) ltac:(lia)) as (t & q & Q & Hq & Ht).
        replace k with (2 * E + 3 * t + q) by lia. rewrite fe_in by assumption.
        pose proof (HS t q Ht Hq). pose proof (HS t (nx q) Ht (nx_lt _)). destruct h; lia.
    - intros i j Hi Hj. apply ft_lt; assumption.
    - intros i j Hi Hj. destruct (tri_split i Hi) as (t & q & Ht & Hq & ->).
      destruct (Nat.eq_dec q 3) as [->|N].
      + rewrite fs_mid. lia.
      + rewrite fs_corner by lia. destruct j as [|[|j]].
        * pose proof (hv_lt w (vs w t q) (vt w t (nx (nx q))) (vs_lt t q Ht ltac:(lia))). lia.
        * pose proof (hv_lt w (vs w t (nx q)) (vt w t (nx (nx q))) (vs_lt t (nx q) Ht (nx_lt _))). lia.
        * lia.
    - intros i j Hi Hj. destruct (tri_split i Hi) as (t & q & Ht & Hq & ->).
      destruct (Nat.eq_dec q 3) as [->|N].
      + rewrite fs_mid, !ft_mid. right. cbn [fine ve]. rewrite !fe_in by exact Hj.
        destruct j as [|[|[|j]]]; cbn [nx]; try lia; auto.
      + assert (Hq' : q < 3) by lia. rewrite fs_corner, !ft_corner by exact Hq'.
        pose proof (corners_ne w Hw t q Ht Hq') as Nc.
        destruct j as [|[|[|j]]]; cbn [nx]; try lia.
        * apply (proj1 (hv_ends _ _ _ (vs_lt t q Ht Hq') Nc (HD t q Ht Hq'))).
        * pose proof (HD t (nx q) Ht (nx_lt q)) as D. pose proof (corners_ne w Hw t (nx q) Ht (nx_lt q)) as Nd.
          assert (D' : ends w (vs w t (nx q)) (vt w t (nx (nx (nx q)))) (vt w t (nx (nx q)))).
          { destruct D; [right|left]; tauto. }
          destruct (proj1 (hv_ends _ _ _ (vs_lt t (nx q) Ht (nx_lt q)) (not_eq_sym Nd) D')) as [D1|D1]; [right|left]; tauto.
        * left. cbn [fine ve]. rewrite !fe_in by exact Hq'. auto.
    - intros i Hi. destruct (tri_split i Hi) as (t & q & Ht & Hq & ->).
      destruct (Nat.eq_dec q 3) as [->|N].
      + rewrite !ft_mid. cbn [nx].
        pose proof (sides_ne t 0 Ht ltac:(lia)). pose proof (sides_ne t 1 Ht ltac:(lia)).
        pose proof (sides_ne t 2 Ht ltac:(lia)). cbn [nx] in *. lia.
      + rewrite !ft_corner by lia. pose proof (sides_ne t q Ht ltac:(lia)).
        pose proof (vt_lt t (nx (nx q)) Ht (nx_lt _)). lia.
  Qed.

  (** Direction in which the halves of a side are traversed. *)
  Definition ind (a b : nat) : nat := if a =? b then 1 else 0.

  Lemma dir_half t j m h : t < T -> j < 3 -> h < 2 ->
    fterm (fine w) (2 * m + h) (4 * t + j) 0 + fterm (fine w) (2 * m + h) (4 * t + nx (nx j)) 1 = fterm w m t j /\
    bterm (fine w) (2 * m + h) (4 * t + j) 0 + bterm (fine w) (2 * m + h) (4 * t + nx (nx j)) 1 = bterm w m t j.
  Proof.
    intros Ht Hj Hh. pose proof (nx_lt (nx j)) as Hn. pose proof (vs_lt t j Ht Hj) as Hs.
    assert (I0 : 4 * t + j < vT (fine w)) by (cbn [fine vT]; lia).
    assert (I1 : 4 * t + nx (nx j) < vT (fine w)) by (cbn [fine vT]; lia).
    pose proof (vt_lt t (nx j) Ht (nx_lt _)) as L1. pose proof (vt_lt t (nx (nx j)) Ht (nx_lt _)) as L2.
    pose proof (corners_ne w Hw t j Ht Hj) as Nc.
    pose proof (side_dir (fine w) fine_ok _ 0 I0 ltac:(lia)) as D0.
    pose proof (side_dir (fine w) fine_ok _ 1 I1 ltac:(lia)) as D1.
    cbn [fine ve vs vt] in D0, D1. rewrite fs_corner in D0 by exact Hj. rewrite fs_corner in D1 by exact Hn.
    rewrite !ft_corner in D0 by exact Hj. rewrite !ft_corner in D1 by exact Hn. cbn [nx] in D0, D1.
    rewrite (nx_3 j Hj) in D1. replace (nx (nx (nx (nx j)))) with (nx j) in D1 by (rewrite (nx_3 (nx j) (nx_lt j)); reflexivity).
    unfold hv in D0, D1.
    destruct (side_dir w Hw t j Ht Hj) as [(A & B & F1 & F2)|(N & A & B & F1 & F2)].
    - (* forward *)
      rewrite B, Nat.eqb_refl in D0. rewrite B in D1.
      assert (Q : vt w t (nx (nx j)) =? vt w t (nx j) = false) by (apply Nat.eqb_neq; auto).
      rewrite Q in D1. rewrite !fe_half in D0, D1 by lia. rewrite A in D1. rewrite B in D0.
      destruct D0 as [(_ & _ & X1 & X2)|(Y & _)]; [|lia].
      destruct D1 as [(_ & _ & X3 & X4)|(Y & _)]; [|lia].
      rewrite X1, X2, X3, X4, F1, F2. split; [|reflexivity].
      repeat match goal with |- context [?x =? ?y] => destruct (Nat.eqb_spec x y) end; lia.
    - (* backward *)
      rewrite B in D0, D1. rewrite Nat.eqb_refl in D1.
      assert (Q : vt w t (nx j) =? vt w t (nx (nx j)) = false) by (apply Nat.eqb_neq; exact Nc).
      rewrite Q in D0. rewrite !fe_half in D0, D1 by lia. rewrite A in D0. rewrite B in D1.
      destruct D0 as [(Y & _)|(_ & _ & _ & X1 & X2)]; [lia|].
      destruct D1 as [(Y & _)|(_ & _ & _ & X3 & X4)]; [lia|].
      rewrite X1, X2, X3, X4, F1, F2. split; [reflexivity|].
      repeat match goal with |- context [?x =? ?y] => destruct (Nat.eqb_spec x y) end; lia.
  Qed.

  (** The new edges inside the triangles. *)
  Lemma dir_in t q k : t < T -> q < 3 ->
    fterm (fine w) k (4 * t + q) 2 = ind (2 * E + 3 * t + q) k /\ bterm (fine w) k (4 * t + q) 2 = 0 /\
    bterm (fine w) k (4 * t + 3) q = ind (2 * E + 3 * t + q) k /\ fterm (fine w) k (4 * t + 3) q = 0.
  Proof.
    intros Ht Hq. assert (I0 : 4 * t + q < vT (fine w)) by (cbn [fine vT]; lia).
    assert (I1 : 4 * t + 3 < vT (fine w)) by (cbn [fine vT]; lia).
    pose proof (side_dir (fine w) fine_ok _ 2 I0 ltac:(lia)) as D0.
    pose proof (side_dir (fine w) fine_ok _ q I1 Hq) as D1.
    cbn [fine ve vs vt] in D0, D1. rewrite fs_corner in D0 by exact Hq. rewrite fs_mid in D1.
    rewrite !ft_corner in D0 by exact Hq. rewrite !ft_mid in D1. cbn [nx] in D0.
    rewrite !fe_in in D0, D1 by exact Hq.
    rewrite (nx_3 q Hq) in D1. pose proof (sides_ne t q Ht Hq) as N.
    destruct D0 as [(_ & _ & X1 & X2)|(Y & _)]; [|lia].
    destruct D1 as [(Y & _)|(_ & _ & _ & X3 & X4)]; [lia|].
    unfold ind. auto.
  Qed.

  (** Halves of sides are not new edges. *)
  Lemma no_half t q j k : t < T -> q < 3 -> j < 2 -> 2 * E <= k ->
    fterm (fine w) k (4 * t + q) j = 0 /\ bterm (fine w) k (4 * t + q) j = 0.
  Proof.
    intros Ht Hq Hj Hk. unfold fterm, bterm, pterm. cbn [fine vs].
    assert (L : fs w (4 * t + q) j < 2 * E).
    { rewrite fs_corner by exact Hq. destruct j as [|[|j]]; try lia.
      - apply hv_lt, vs_lt; assumption.
      - apply hv_lt, vs_lt; [assumption|apply nx_lt]. }
    destruct (Nat.eqb_spec (fs w (4 * t + q) j) k); [lia|]. auto.
  Qed.

  Lemma fine_passes m h : m < E -> h < 2 ->
    passes (fine w) (2 * m + h) (fe w (2 * m + h) 0) (fe w (2 * m + h) 1) = passes w m (ve w m 0) (ve w m 1) /\
    passes (fine w) (2 * m + h) (fe w (2 * m + h) 1) (fe w (2 * m + h) 0) = passes w m (ve w m 1) (ve w m 0).
  Proof.
    intros Hm Hh.
    change (nsum (4 * T) (fun i => nsum 3 (fterm (fine w) (2 * m + h) i)) = nsum T (fun i => nsum 3 (fterm w m i)) /\
            nsum (4 * T) (fun i => nsum 3 (bterm (fine w) (2 * m + h) i)) = nsum T (fun i => nsum 3 (bterm w m i))).
    rewrite !nsum_4.
    assert (G : forall t, t < T -> forall q, q < 3 -> ind (2 * E + 3 * t + q) (2 * m + h) = 0).
    { intros t Ht q Hq. unfold ind. destruct (Nat.eqb_spec (2 * E + 3 * t + q) (2 * m + h)); lia. }
    split; apply nsum_eq; intros t Ht; cbn [nsum];
      destruct (dir_half t 0 m h Ht ltac:(lia) Hh) as [A0 B0]; destruct (dir_half t 1 m h Ht ltac:(lia) Hh) as [A1 B1];
      destruct (dir_half t 2 m h Ht ltac:(lia) Hh) as [A2 B2]; cbn [nx] in *;
      destruct (dir_in t 0 (2 * m + h) Ht ltac:(lia)) as (P0 & P1 & P2 & P3);
      destruct (dir_in t 1 (2 * m + h) Ht ltac:(lia)) as (Q0 & Q1 & Q2 & Q3);
      destruct (dir_in t 2 (2 * m + h) Ht ltac:(lia)) as (R0 & R1 & R2 & R3);
      rewrite !G in * by (assumption || lia); rewrite (Nat.add_0_r (4 * t)) in *; lia.
  Qed.

  Lemma fine_passes_in t0 q0 : t0 < T -> q0 < 3 -> let k := 2 * E + 3 * t0 + q0 in
    passes (fine w) k (fe w k 0) (fe w k 1) = 1 /\ passes (fine w) k (fe w k 1) (fe w k 0) = 1.
  Proof.
    intros Ht0 Hq0 k.
    change (nsum (4 * T) (fun i => nsum 3 (fterm (fine w) k i)) = 1 /\
            nsum (4 * T) (fun i => nsum 3 (bterm (fine w) k i)) = 1).
    rewrite !nsum_4.
    assert (Hk : 2 * E <= k) by (unfold k; lia).
    assert (G : forall t, ind (2 * E + 3 * t + 0) k + ind (2 * E + 3 * t + 1) k + ind (2 * E + 3 * t + 2) k =
                          (if t =? t0 then 1 else 0)).
    { intros t. unfold ind, k. destruct (Nat.eqb_spec t t0) as [->|];
      repeat match goal with |- context [?x =? ?y] => destruct (Nat.eqb_spec x y) end; lia. }
    split; (transitivity (nsum T (fun t => if t =? t0 then 1 else 0)); [|apply nsum_delta; exact Ht0]);
      apply nsum_eq; intros t Ht; rewrite <- G; cbn [nsum];
      destruct (dir_in t 0 k Ht ltac:(lia)) as (P0 & P1 & P2 & P3);
      destruct (dir_in t 1 k Ht ltac:(lia)) as (Q0 & Q1 & Q2 & Q3);
      destruct (dir_in t 2 k Ht ltac:(lia)) as (R0 & R1 & R2 & R3);
      destruct (no_half t 0 0 k Ht ltac:(lia) ltac:(lia) Hk) as [A0 B0];
      destruct (no_half t 0 1 k Ht ltac:(lia) ltac:(lia) Hk) as [A1 B1];
      destruct (no_half t 1 0 k Ht ltac:(lia) ltac:(lia) Hk) as [A2 B2];
      destruct (no_half t 1 1 k Ht ltac:(lia) ltac:(lia) Hk) as [A3 B3];
      destruct (no_half t 2 0 k Ht ltac:(lia) ltac:(lia) Hk) as [A4 B4];
      destruct (no_half t 2 1 k Ht ltac:(lia) ltac:(lia) Hk) as [A5 B5];
      rewrite (Nat.add_0_r (4 * t)) in *; lia.
  Qed.

  Lemma edge_split k : k < 2 * E + 3 * T ->
    (exists p h, p < E /\ h < 2 /\ k = 2 * p + h) \/ (exists t q, t < T /\ q < 3 /\ k = 2 * E + 3 * t + q).
  Proof.
    intros Hk. destruct (Nat.lt_ge_cases k (2 * E)) as [L|L].
    - left. destruct (split_mul 2 E k ltac:(lia) L) as (p & o & Q & Ho & Hp). eauto.
    - right. destruct (split_mul 3 T (k - 2 * E) ltac:(lia) ltac:(lia)) as (t & q & Q & Hq & Ht).
      exists t, q. split; [exact Ht|]. split; [exact Hq|lia].
  Qed.

  Lemma fine_uses m h : m < E -> h < 2 -> uses (fine w) (2 * m + h) = uses w m.
  Proof.
    intros Hm Hh. rewrite (uses_passes _ fine_ok), (uses_passes _ Hw). destruct (fine_passes m h Hm Hh) as [A B].
    cbn [fine ve]. rewrite A, B. reflexivity.
  Qed.
  Lemma fine_uses_in t q : t < T -> q < 3 -> uses (fine w) (2 * E + 3 * t + q) = 2.
  Proof.
    intros Ht Hq. rewrite (uses_passes _ fine_ok). destruct (fine_passes_in t q Ht Hq) as [A B].
    cbn [fine ve]. rewrite A, B. reflexivity.
  Qed.

  Lemma fine_closed : closed (fine w) <-> closed w.
  Proof.
    unfold closed; cbn [fine vE]. split; intros H k Hk.
    - rewrite <- (fine_uses k 0 Hk ltac:(lia)). apply H. lia.
    - destruct (edge_split k Hk) as [(p & h & Hp & Hh & ->)|(t & q & Ht & Hq & ->)].
      + rewrite fine_uses by assumption. apply H. exact Hp.
      + apply fine_uses_in; assumption.
  Qed.

  Lemma fine_oriented : oriented (fine w) <-> oriented w.
  Proof.
    unfold oriented; cbn [fine vE ve]. split; intros H k Hk.
    - intros Hu. specialize (H (2 * k + 0) ltac:(lia)). rewrite fine_uses in H by lia. specialize (H Hu).
      destruct (fine_passes k 0 Hk ltac:(lia)) as [A B]. rewrite A, B in H. exact H.
    - destruct (edge_split k Hk) as [(p & h & Hp & Hh & ->)|(t & q & Ht & Hq & ->)].
      + rewrite fine_uses by assumption. intros Hu. destruct (fine_passes p h Hp Hh) as [A B].
        rewrite A, B. apply H; assumption.
      + intros _. destruct (fine_passes_in t q Ht Hq) as [A B]. rewrite A, B. lia.
  Qed.
End Topology.

Section Geometry.
  Context {K : fops} (L : field_laws K) (H2 : (1 + 1)%F <> (0%F : K)) (w : sview K) (Hw : surf_ok w).
  Add Ring surf_ring4 : (rl_ring K (fl_ring K L)).
  Notation V := (vV w). Notation E := (vE w). Notation T := (vT w).

  Definition pt (v : sview K) (p c : nat) : K * K := (vx v p (nx c), vx v p (nx (nx c))).

  Lemma cross_det (v : sview K) i c : cross v i c = det (pt v (vt v i 0) c) (pt v (vt v i 1) c) (pt v (vt v i 2) c).
  Proof. unfold cross, det, pt; cbn [fst snd]. ring. Qed.

  Lemma pt_new k a b c : k < E -> ends w k a b -> pt (fine w) (V + k) c = mid (pt w a c) (pt w b c).
  Proof.
    intros Hk D. unfold pt, mid; cbn [fst snd fine vx]. rewrite !fx_new.
    destruct D as [[-> ->]|[-> ->]]; f_equal; ring.
  Qed.
  Lemma pt_old p c : p < V -> pt (fine w) p c = pt w p c.
  Proof. intros H. unfold pt. cbn [fine vx]. rewrite !fx_old by exact H. reflexivity. Qed.

  Lemma det_rot (p q r : K * K) : det p q r = det q r p.
  Proof. unfold det. ring. Qed.

  Lemma fine_cross t q c : t < T -> q < 4 -> cross w t c = four (cross (fine w) (4 * t + q) c).
  Proof.
    intros Ht Hq. pose proof Hw as [(HE & HT & HS & HD) _].
    pose proof (HD t 0 Ht ltac:(lia)) as D0. pose proof (HD t 1 Ht ltac:(lia)) as D1. pose proof (HD t 2 Ht ltac:(lia)) as D2.
    cbn [nx] in D0, D1, D2.
    pose proof (pt_new _ _ _ c (HS t 0 Ht ltac:(lia)) D0) as P0.
    pose proof (pt_new _ _ _ c (HS t 1 Ht ltac:(lia)) D1) as P1.
    pose proof (pt_new _ _ _ c (HS t 2 Ht ltac:(lia)) D2) as P2.
    rewrite !cross_det.
    destruct (four_mid L H2 (pt w (vt w t 0) c) (pt w (vt w t 1) c) (pt w (vt w t 2) c)) as (A & B & C & D).
    cbn [fine vt] in *. destruct q as [|[|[|[|q]]]]; try lia.
    - rewrite !ft_corner by lia. cbn [nx]. rewrite P0, P1, pt_old by (apply HT; lia). exact C.
    - rewrite !ft_corner by lia. cbn [nx]. rewrite P1, P2, pt_old by (apply HT; lia).
      rewrite A. f_equal. rewrite det_rot. reflexivity.
    - rewrite !ft_corner by lia. cbn [nx]. rewrite P0, P2, pt_old by (apply HT; lia).
      rewrite B. f_equal. rewrite det_rot, det_rot. reflexivity.
    - rewrite !ft_mid. cbn [nx]. rewrite P0, P1, P2. rewrite D. f_equal. rewrite det_rot, det_rot. reflexivity.
  Qed.

  Lemma fine_refined : red_refined w (fine w).
  Proof.
    unfold red_refined; cbn [fine vV vE vT vx ve vt].
    refine (conj eq_refl (conj eq_refl (conj eq_refl (conj _ (conj _ (conj _ _)))))).
    - intros i j Hi _. apply fx_old. exact Hi.
    - intros k j _ _. rewrite !fx_new.
      transitivity ((half K + half K) * (vx w (ve w k 0) j + vx w (ve w k 1) j))%F; [ring|].
      rewrite (half_two L H2). ring.
    - intros k Hk. rewrite <- (Nat.add_0_r (2 * k)) at 1 2. rewrite !fe_half by lia. auto.
    - intros i j Hi Hj. rewrite !ft_corner, ft_mid by exact Hj. auto.
  Qed.
End Geometry.
