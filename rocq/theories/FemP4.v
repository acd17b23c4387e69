(** * Finite elements: element matrices and the load vector *)
From Coq Require Import Arith Lia List Bool Ring Field.
From Verif Require Import Fld Ord Prog Arr HmSpec Sparse SparseP PropSparse Tri2d Tri2dSpec Tri2dP Tri2dP2 Tri2dP3 Fem FemSpec FemP FemP2 FemP3.
Import ListNotations.
Local Open Scope nat_scope.

Section Elem.
  Context {K : ofops} (L : ofield_laws K).
  Let LF : field_laws K := ol_field K L.
  Add Field Kfield_fem5 : (fl_field LF).
  Local Notation RL := (fl_ring K (ol_field K L)).

  Lemma lit2_ne : (1 + 1)%F <> (0%F : K).
  Proof. apply not_eq_sym, (flt_ne L). apply (f2_pos L). Qed.
  Lemma lit3_ne : (1 + 1 + 1)%F <> (0%F : K).
  Proof. apply not_eq_sym, (flt_ne L), (flt_add_pos L); [apply (f2_pos L)|apply (f1_pos L)]. Qed.

  Lemma finv_is (x y : K) : x <> f0 -> (y * x)%F = f1 -> finv x = y.
  Proof.
    intros N E. transitivity ((y * x) * finv x)%F; [rewrite E; ring|].
    transitivity (y * (finv x * x))%F; [ring|]. rewrite (fl_inv K LF) by exact N. ring.
  Qed.
  Lemma mul_ne (x y : K) : x <> f0 -> y <> f0 -> (x * y)%F <> f0.
  Proof.
    intros Hx Hy E. apply Hy. transitivity (finv x * x * y)%F; [rewrite (fl_inv K LF) by exact Hx; ring|].
    transitivity (finv x * (x * y))%F; [ring|]. rewrite E. ring.
  Qed.
  Lemma finv_mul (x y : K) : x <> f0 -> y <> f0 -> finv (x * y)%F = (finv x * finv y)%F.
  Proof.
    intros Hx Hy. apply finv_is; [apply mul_ne; assumption|].
    transitivity ((finv x * x) * (finv y * y))%F; [ring|]. rewrite !(fl_inv K LF) by assumption. ring.
  Qed.
  Lemma lits : finv (@lit6 K) = (finv (@lit2 K) * finv (@lit3 K))%F /\ finv (@lit12 K) = (finv (@lit2 K) * (finv (@lit2 K) * finv (@lit3 K)))%F /\
    finv (@lit24 K) = (finv (@lit2 K) * (finv (@lit2 K) * (finv (@lit2 K) * finv (@lit3 K))))%F /\ ((1 + 1) * finv (@lit2 K))%F = (1%F : K) /\
    half K = finv (@lit2 K).
  Proof.
    pose proof lit2_ne as A. pose proof lit3_ne as B. fold (@lit2 K) in A. fold (@lit3 K) in B.
    unfold lit24, lit12, lit6. rewrite !finv_mul by (repeat apply mul_ne; assumption).
    split; [reflexivity|]. split; [reflexivity|]. split; [reflexivity|].
    split; [apply (finv_r LF); exact A|]. unfold half, fdiv. fold (@lit2 K). ring.
  Qed.

  Lemma rabs_is (d s : K) : fle f0 s -> s = d \/ s = (- d)%F -> rabs d = s.
  Proof.
    intros Hs H. unfold rabs. destruct (flt d f0) eqn:E.
    - destruct H as [-> | ->]; [|reflexivity]. unfold fle in Hs. congruence.
    - destruct H as [-> | ->]; [reflexivity|]. assert (D : d = f0); [|rewrite D; ring].
      apply (fle_antisym L); [|exact E].
      apply (proj2 (fle_sub L _ _)). replace (0 - d)%F with (- d)%F by ring. exact Hs.
  Qed.

  Lemma double_nn (a : K) : fle f0 a -> fle f0 (a + a)%F.
  Proof. intros H. apply (fle_add_nn L); exact H. Qed.

  Lemma grad_det (p q r g : K * K) : is_grad p q r g ->
    (det p q r * fst g = snd q - snd r)%F /\ (det p q r * snd g = fst r - fst q)%F.
  Proof.
    intros [A B]. unfold det. split.
    - transitivity ((fst g * (fst q - fst p) + snd g * (snd q - snd p)) * (snd r - snd p) -
        (fst g * (fst r - fst p) + snd g * (snd r - snd p)) * (snd q - snd p))%F; [ring|]. rewrite A, B. ring.
    - transitivity ((fst g * (fst r - fst p) + snd g * (snd r - snd p)) * (fst q - fst p) -
        (fst g * (fst q - fst p) + snd g * (snd q - snd p)) * (fst r - fst p))%F; [ring|]. rewrite A, B. ring.
  Qed.

  Lemma laplace_value (p0 p1 p2 g0 g1 g2 : K * K) (a : K) :
    is_grad p0 p1 p2 g0 -> is_grad p1 p2 p0 g1 -> is_grad p2 p0 p1 g2 ->
    det p0 p1 p2 <> f0 -> fle f0 a -> ((a + a)%F = det p0 p1 p2 \/ (a + a)%F = (- det p0 p1 p2)%F) ->
    forall i j, i < 3 -> j < 3 ->
    laplace_element p0 p1 p2 i j =
    (a * (fst (at3 (g0, g1, g2) i) * fst (at3 (g0, g1, g2) j) + snd (at3 (g0, g1, g2) i) * snd (at3 (g0, g1, g2) j)))%F.
  Proof.
    intros G0 G1 G2 HD Ha Hs i j Hi Hj. set (D := det p0 p1 p2) in *.
    apply grad_det in G0, G1, G2.
    assert (E1 : det p1 p2 p0 = D) by (unfold D, det; ring). rewrite E1 in G1.
    assert (E2 : det p2 p0 p1 = D) by (unfold D, det; ring). rewrite E2 in G2. fold D in G0.
    assert (R : rabs (laplace_det p0 p1 p2) = (a + a)%F).
    { apply rabs_is; [apply double_nn; exact Ha|].
      assert (X : laplace_det p0 p1 p2 = (- D)%F) by (unfold laplace_det, D, det; ring).
      rewrite X. destruct Hs as [-> | ->]; [right; ring|left; reflexivity]. }
    assert (X : forall k, k < 3 -> fst (laplace_gr p0 p1 p2 k) = (- (D * fst (at3 (g0, g1, g2) k)))%F /\
      snd (laplace_gr p0 p1 p2 k) = (- (D * snd (at3 (g0, g1, g2) k)))%F).
    { intros k Hk. destruct k as [|[|[|k]]]; [| | |lia]; cbn [at3 laplace_gr fst snd].
      - destruct G0 as [-> ->]. split; ring.
      - destruct G1 as [-> ->]. split; ring.
      - destruct G2 as [-> ->]. split; ring. }
    assert (SN : (a + a)%F <> f0).
    { intros E. apply HD. rewrite E in Hs. destruct Hs as [H|H]; [congruence|].
      transitivity (- - D)%F; [ring|]. rewrite <- H. ring. }
    assert (DD : (D * D = (a + a) * (a + a))%F) by (destruct Hs as [-> | ->]; ring).
    unfold laplace_element. cbv zeta. rewrite R. destruct (X i Hi) as [-> ->]. destruct (X j Hj) as [-> ->].
    set (gi := at3 _ i). set (gj := at3 _ j). unfold lit2.
    transitivity ((D * D) * (fst gi * fst gj + snd gi * snd gj) / (a + a) / (1 + 1))%F.
    { unfold fdiv. ring. }
    rewrite DD. field. split; first [exact lit2_ne|exact SN].
  Qed.

  Section Mesh.
    Context (w : mview K) (area : nat -> K) (HA : areas w area).

    Lemma is_grad_sym p q r (g : K * K) : is_grad p q r g -> is_grad p r q g.
    Proof. intros [A B]; split; assumption. Qed.

    (** A local numbering of the vertices: the area. *)
    Lemma local_area j xt : j < mT w -> local w j xt ->
      let d := det (mx w (at3 xt 0)) (mx w (at3 xt 1)) (mx w (at3 xt 2)) in
      fle f0 (area j) /\ ((area j + area j)%F = d \/ (area j + area j)%F = (- d)%F).
    Proof.
      intros Hj (v0 & v1 & v2 & C & H) d. destruct (HA j v0 v1 v2 Hj C) as [A B]. cbv zeta in B.
      split; [exact A|]. unfold d. destruct H as [-> | ->]; cbn [at3 fst snd].
      - replace (det (mx w v1) (mx w v2) (mx w v0)) with (det (mx w v0) (mx w v1) (mx w v2)) by (unfold det; ring).
        exact B.
      - replace (det (mx w v2) (mx w v1) (mx w v0)) with (- det (mx w v0) (mx w v1) (mx w v2))%F by (unfold det; ring).
        destruct B as [-> | ->]; [right; ring|left; reflexivity].
    Qed.

    Definition Flap (G : nat -> nat -> K * K) (j u v : nat) : K :=
      (area j * (fst (G j u) * fst (G j v) + snd (G j u) * snd (G j v)))%F.

    Lemma lap_fits G : hat_gradients w G -> nondegenerate w ->
      forall j xt, j < mT w -> local w j xt -> forall a b, a < 3 -> b < 3 ->
      laplace_element (mx w (at3 xt 0)) (mx w (at3 xt 1)) (mx w (at3 xt 2)) a b = Flap G j (at3 xt a) (at3 xt b).
    Proof.
      intros HG HN j xt Hj Hx a b Ha Hb. destruct (local_area j xt Hj Hx) as [A B].
      pose proof Hx as (v0 & v1 & v2 & C & H). destruct (HG j v0 v1 v2 Hj C) as (G0 & G1 & G2 & _).
      pose proof (HN j v0 v1 v2 Hj C) as D.
      rewrite (laplace_value _ _ _ (G j (at3 xt 0)) (G j (at3 xt 1)) (G j (at3 xt 2)) (area j)); try assumption.
      - unfold Flap. destruct a as [|[|[|a]]]; try lia; destruct b as [|[|[|b]]]; try lia; reflexivity.
      - destruct H as [-> | ->]; cbn [at3 fst snd]; auto using is_grad_sym.
      - destruct H as [-> | ->]; cbn [at3 fst snd]; auto using is_grad_sym.
      - destruct H as [-> | ->]; cbn [at3 fst snd]; auto using is_grad_sym.
      - destruct H as [-> | ->]; cbn [at3 fst snd]; intros E; apply D.
        + rewrite <- E. unfold det. ring.
        + transitivity (- det (mx w v2) (mx w v1) (mx w v0))%F; [unfold det; ring|rewrite E; ring].
    Qed.
    Lemma lap_zero G : hat_gradients w G -> mesh_ok w ->
      forall j u v, j < mT w -> ~ corner w j u \/ ~ corner w j v -> Flap G j u v = f0.
    Proof.
      intros HG (_ & HT & _) j u v Hj H. destruct (HT j Hj) as (v0 & v1 & v2 & C).
      destruct (HG j v0 v1 v2 Hj C) as (_ & _ & _ & Z). unfold Flap.
      rewrite !(corner_iff w j v0 v1 v2 _ C) in H.
      destruct H as [H|H]; [rewrite (Z u) by tauto|rewrite (Z v) by tauto]; cbn [fst snd]; ring.
    Qed.

    (** Hat functions in midpoints of edges. *)
    Lemma hat_val (e u a b : nat) : joins (me w e) a b ->
      hat_mid w u e = if (a =? u) || (b =? u) then half K else f0.
    Proof.
      intros [E|E]; unfold hat_mid; rewrite E; cbn [fst snd]; [reflexivity|]. rewrite orb_comm. reflexivity.
    Qed.

    Definition Fmass (j u v : nat) : K :=
      let h e := (hat_mid w u e * hat_mid w v e)%F in
      (area j / lit3 * (h (mt w j 0) + h (mt w j 1) + h (mt w j 2)))%F.

    Ltac eqbs := repeat match goal with
      | |- context [?x =? ?x] => rewrite (Nat.eqb_refl x)
      | N : ?x <> ?y |- context [?x =? ?y] => rewrite (proj2 (Nat.eqb_neq x y) N)
      | N : ?y <> ?x |- context [?x =? ?y] => rewrite (proj2 (Nat.eqb_neq x y) (not_eq_sym N))
      | |- context [?x =? ?y] => let v := eval compute in (x =? y) in
          match v with true => change (x =? y) with true | false => change (x =? y) with false end end.

    Lemma mass_fits : forall j xt, j < mT w -> local w j xt -> forall a b, a < 3 -> b < 3 ->
      mass_element (mx w (at3 xt 0)) (mx w (at3 xt 1)) (mx w (at3 xt 2)) a b = Fmass j (at3 xt a) (at3 xt b).
    Proof.
      intros j xt Hj Hx a b Ha Hb. destruct (local_area j xt Hj Hx) as [A B].
      unfold mass_element. cbv zeta.
      match goal with |- context [rabs ?d] => replace (rabs d) with (area j + area j)%F end.
      2: { symmetry. apply rabs_is; [apply double_nn; exact A|].
           unfold det in B. destruct B as [-> | ->]; [left|right]; ring. }
      destruct Hx as (v0 & v1 & v2 & (N1 & N2 & N3 & _ & J0 & J1 & J2) & H).
      unfold Fmass. cbv zeta.
      rewrite !(hat_val _ _ _ _ J0), !(hat_val _ _ _ _ J1), !(hat_val _ _ _ _ J2).
      destruct lits as (_ & E12 & E24 & E2 & ->). unfold fdiv. rewrite E12, E24. clear E12 E24.
      set (i2 := finv (@lit2 K)) in *. set (i3 := finv (@lit3 K)). clearbody i2 i3.
      destruct H as [-> | ->]; destruct a as [|[|[|a]]]; try lia; destruct b as [|[|[|b]]]; try lia;
        cbn [at3 fst snd Nat.eqb]; eqbs; cbn [orb]; first [ring|match goal with |- _ = ?r =>
          transitivity (r * ((1 + 1) * i2))%F; [ring|rewrite E2; ring] end].
    Qed.
    Lemma hat_off j v0 v1 v2 u k : corners w j v0 v1 v2 -> k < 3 -> u <> v0 -> u <> v1 -> u <> v2 ->
      hat_mid w u (mt w j k) = f0.
    Proof.
      intros (N1 & N2 & N3 & _ & J0 & J1 & J2) Hk A0 A1 A2.
      destruct k as [|[|[|k]]]; [rewrite (hat_val _ _ _ _ J0)|rewrite (hat_val _ _ _ _ J1)|rewrite (hat_val _ _ _ _ J2)|lia];
        eqbs; reflexivity.
    Qed.
    Lemma mass_zero : mesh_ok w ->
      forall j u v, j < mT w -> ~ corner w j u \/ ~ corner w j v -> Fmass j u v = f0.
    Proof.
      intros (_ & HT & _) j u v Hj H. destruct (HT j Hj) as (v0 & v1 & v2 & C). unfold Fmass. cbv zeta.
      rewrite !(corner_iff w j v0 v1 v2 _ C) in H.
      destruct H as [H|H].
      - rewrite !(hat_off j v0 v1 v2 u _ C) by (try lia; tauto). ring.
      - rewrite !(hat_off j v0 v1 v2 v _ C) by (try lia; tauto). ring.
    Qed.

    (** The load vector. *)
    Definition Fload (f : K * K -> K) (j u : nat) : K :=
      let h e := (f (edge_mid w e) * hat_mid w u e)%F in
      (area j / lit3 * (h (mt w j 0) + h (mt w j 1) + h (mt w j 2)))%F.

    Lemma mid_sym (p q : K * K) : mid p q = mid q p.
    Proof. unfold mid. f_equal; ring. Qed.
    Lemma edge_mid_joins e a b : joins (me w e) a b -> edge_mid w e = mid (mx w a) (mx w b).
    Proof. intros [E|E]; unfold edge_mid; rewrite E; cbn [fst snd]; [reflexivity|apply mid_sym]. Qed.

    Definition opp_sum (f : K * K -> K) (xt : nat * nat * nat) (k : nat) : K :=
      let f01 := f (mid (mx w (at3 xt 0)) (mx w (at3 xt 1))) in
      let f02 := f (mid (mx w (at3 xt 0)) (mx w (at3 xt 2))) in
      let f12 := f (mid (mx w (at3 xt 1)) (mx w (at3 xt 2))) in
      match k with 0 => (f01 + f02)%F | 1 => (f01 + f12)%F | _ => (f02 + f12)%F end.

    Lemma load_fits f : forall j xt, j < mT w -> local w j xt -> forall k, k < 3 ->
      (half K * opp_sum f xt k * (area j + area j) / lit6)%F = Fload f j (at3 xt k).
    Proof.
      intros j xt Hj Hx k Hk.
      destruct Hx as (v0 & v1 & v2 & (N1 & N2 & N3 & _ & J0 & J1 & J2) & H).
      unfold Fload. cbv zeta.
      rewrite !(hat_val _ _ _ _ J0), !(hat_val _ _ _ _ J1), !(hat_val _ _ _ _ J2).
      rewrite (edge_mid_joins _ _ _ J0), (edge_mid_joins _ _ _ J1), (edge_mid_joins _ _ _ J2).
      unfold opp_sum. cbv zeta. destruct lits as (E6 & _ & _ & E2 & ->).
      destruct H as [-> | ->]; cbn [at3 fst snd];
        rewrite ?(mid_sym (mx w v2) (mx w v1)), ?(mid_sym (mx w v0) (mx w v2)), ?(mid_sym (mx w v1) (mx w v0));
        set (m12 := f (mid (mx w v1) (mx w v2))); set (m20 := f (mid (mx w v2) (mx w v0)));
        set (m01 := f (mid (mx w v0) (mx w v1))); clearbody m12 m20 m01;
        unfold fdiv; rewrite E6; set (i2 := finv (@lit2 K)) in *; set (i3 := finv (@lit3 K)); clearbody i2 i3;
        destruct k as [|[|[|k]]]; try lia; cbn [at3 fst snd]; eqbs; cbn [orb];
        first [ring|match goal with |- _ = ?r =>
          transitivity (r * ((1 + 1) * i2))%F; [ring|rewrite E2; ring] end].
    Qed.
    Lemma load_zero f : mesh_ok w -> forall j u, j < mT w -> ~ corner w j u -> Fload f j u = f0.
    Proof.
      intros (_ & HT & _) j u Hj H. destruct (HT j Hj) as (v0 & v1 & v2 & C). unfold Fload. cbv zeta.
      rewrite !(corner_iff w j v0 v1 v2 _ C) in H.
      rewrite !(hat_off j v0 v1 v2 u _ C) by (try lia; tauto). ring.
    Qed.
  End Mesh.

  Section Load.
    Context (dc : tri2dp1 K) (w : mview K) (num : nat -> nat) (Hs : space_is dc w num) (Hok : mesh_ok w).
    Context (area : nat -> K) (HA : areas w area).

    Lemma rok_upd fv g v (c : K) : v < mV w -> aval fv (p1_ndof dc) g ->
      rok (when_dof dc true v (fun ii fv =>
            do* rassert (ii <? p1_ndof dc) in
            let* y := aget fv ii in aset fv ii (y + c)%F) fv)
          (fun fv' => aval fv' (p1_ndof dc) (fun r => (g r + (if isfree w v && (num v =? r) then c else f0))%F)).
    Proof.
      intros Hv Hg. pose proof Hs as (_ & Hd & Hi & _). unfold when_dof.
      rewrite (aval_get _ _ _ _ Hd Hv). cbn [rbind]. fold (isfree w v).
      destruct (isfree w v) eqn:E; cbn [Bool.eqb andb].
      - rewrite (aval_get _ _ _ _ Hi Hv). cbn [rbind]. pose proof (num_free dc w num Hs v Hv E) as N.
        rewrite (proj2 (Nat.ltb_lt _ _) N). cbn [rassert rbind]. rewrite (aval_get _ _ _ _ Hg N). cbn [rbind].
        eapply rok_aset; [exact Hg|exact N|]. intros a' Ha'. eapply aval_ext; [exact Ha'|].
        intros r Hr. unfold afupd. rewrite (Nat.eqb_sym r). destruct (Nat.eqb_spec (num v) r) as [->|_]; [reflexivity|ring].
      - cbn [rok]. eapply aval_ext; [exact Hg|]. intros r Hr. cbv beta. ring.
    Qed.

    Lemma run_load f fv : length fv = p1_ndof dc ->
      rok (assemble_tri2dp1_functional_avector dc f fv) (fun fv' => exists g, aval fv' (p1_ndof dc) g /\
        forall u, u < mV w -> isfree w u = true -> g (num u) = sum (mT w) (fun j => Fload w area f j u)).
    Proof.
      intros Hlen. pose proof Hs as (Hm & _). pose proof Hm as (_ & _ & ET & Ax & _).
      unfold assemble_tri2dp1_functional_avector. rewrite Hlen, Nat.eqb_refl. cbn [rassert rbind].
      apply rok_bind. apply (rok_for (fun i a => aprt a (p1_ndof dc) (fun k => k < i) (fun _ => f0))).
      { rewrite <- Hlen. clear. split; [reflexivity|]. intros; lia. }
      { intros i a Hi Ha. eapply rok_aset_next; [exact Ha|lia|reflexivity|]. intros a' Ha'; exact Ha'. }
      change (0 + p1_ndof dc) with (p1_ndof dc). intros fv0 H0. apply aprt_aval in H0; [|auto]. rewrite ET.
      apply (rok_for (fun d fv => exists g, aval fv (p1_ndof dc) g /\
        forall u, u < mV w -> isfree w u = true -> g (num u) = sum d (fun j => Fload w area f j u))).
      - exists (fun _ => f0). split; [exact H0|reflexivity].
      - intros d fv1 Hd (g & Hg & HG). destruct (local_ok dc w num Hs Hok d ltac:(lia)) as (xt & E & Hx).
        rewrite E. cbn [rbind].
        assert (B : forall k, at3 xt k < mV w) by (intros k; apply (local_lt w Hok d xt k Hx)).
        rewrite !(aval_get _ _ _ _ Ax) by apply B. cbn [rbind].
        cbv zeta.
        match goal with |- context [rabs ?D] => replace (rabs D) with (area d + area d)%F end.
        2: { destruct (local_area w area HA d xt ltac:(lia) Hx) as [P Q]. symmetry.
             apply rabs_is; [apply double_nn; exact P|]. unfold det in Q. destruct Q as [-> | ->]; [left|right]; ring. }
        apply rok_bind. eapply rok_conseq; [apply rok_upd; [apply B|exact Hg]|]. intros fv2 H2. cbv beta in H2.
        apply rok_bind. eapply rok_conseq; [apply rok_upd; [apply B|exact H2]|]. intros fv3 H3. cbv beta in H3.
        eapply rok_conseq; [apply rok_upd; [apply B|exact H3]|]. intros fv4 H4. cbv beta in H4.
        eexists. split; [exact H4|]. intros u Hu Fu. cbv beta. rewrite HG by assumption. cbn [sum].
        pose proof (load_fits w area f d xt ltac:(lia) Hx) as LF'.
        pose proof (LF' 0 ltac:(lia)) as L0. pose proof (LF' 1 ltac:(lia)) as L1. pose proof (LF' 2 ltac:(lia)) as L2.
        unfold opp_sum in L0, L1, L2. cbv zeta in L0, L1, L2. rewrite L0, L1, L2.
        assert (Q : forall k, isfree w (at3 xt k) && (num (at3 xt k) =? num u) = (at3 xt k =? u)).
        { intros k. destruct (Nat.eqb_spec (at3 xt k) u) as [->|N]; [rewrite Fu, Nat.eqb_refl; reflexivity|].
          destruct (isfree w (at3 xt k)) eqn:Fk; [|reflexivity]. cbn [andb]. apply Nat.eqb_neq. intros X. apply N.
          apply (num_inj dc w num Hs); [apply B|exact Hu|congruence|exact X]. }
        rewrite !Q. destruct (local_ne w d xt Hx) as (N1 & N2 & N3).
        destruct (Nat.eqb_spec (at3 xt 0) u) as [A0|A0], (Nat.eqb_spec (at3 xt 1) u) as [A1|A1],
          (Nat.eqb_spec (at3 xt 2) u) as [A2|A2]; try congruence; try subst u; try ring.
        rewrite (load_zero w area f Hok d u) by (try lia; rewrite (local_corner w d xt _ Hx); intros [X|[X|X]]; congruence).
        ring.
      - change (0 + mT w) with (mT w). auto.
    Qed.
  End Load.
End Elem.
