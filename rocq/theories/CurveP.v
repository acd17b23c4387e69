(** * Polygons in the plane: proofs *)
From Coq Require Import Arith Lia List Bool Ring.
From Verif Require Import Fld Ord Prog Arr HmSpec Tri2d Tri2dP Surf SurfSpec SurfP SurfP2 SurfP5 Curve CurveSpec.
Import ListNotations.
Local Open Scope nat_scope.

(** ** Writing rows of two entries *)
Lemma rok_row {A} (x : arr A) n (f : nat -> nat -> A) i u v (Q : arr A -> Prop) :
  aprt x (2 * n) (fun p => p < 2 * i) (fun p => f (p / 2) (p mod 2)) -> i < n -> u = f i 0 -> v = f i 1 ->
  (forall y, aprt y (2 * n) (fun p => p < 2 * S i) (fun p => f (p / 2) (p mod 2)) -> Q y) ->
  rok (rbind (aset x (2 * i + 0) u) (fun x => aset x (2 * i + 1) v)) Q.
Proof.
  intros Hx Hi Hu Hv HQ. apply rok_bind. eapply rok_aset_next; [rewrite Nat.add_0_r; exact Hx|lia| |].
  { destruct (divmod 2 i 0 ltac:(lia)) as [-> ->]. exact Hu. }
  rewrite Nat.add_0_r. replace (S (2 * i)) with (2 * i + 1) by lia. intros y Hy.
  eapply rok_aset_next; [exact Hy|lia| |].
  { destruct (divmod 2 i 1 ltac:(lia)) as [-> ->]. exact Hv. }
  replace (S (2 * i + 1)) with (2 * S i) by lia. exact HQ.
Qed.

Definition cyc (n i h : nat) : nat := if h =? 0 then i else (i + 1) mod n.
Lemma cyc_closed n : closed_polygon n (cyc n).
Proof.
  intros i Hi. unfold cyc; cbn [Nat.eqb]. split; [reflexivity|].
  destruct (Nat.eqb_spec (i + 1) n) as [E|N]; [rewrite E; apply Nat.mod_same; lia|apply Nat.mod_small; lia].
Qed.
Lemma cyc_lt n i h : i < n -> cyc n i h < n.
Proof. intros H. unfold cyc. destruct (h =? 0); [exact H|apply Nat.mod_upper_bound; lia]. Qed.

Lemma rok_set_edge n i (e : arr nat) (Q : arr nat -> Prop) :
  aprt e (2 * n) (fun p => p < 2 * i) (fun p => cyc n (p / 2) (p mod 2)) -> i < n ->
  (forall y, aprt y (2 * n) (fun p => p < 2 * S i) (fun p => cyc n (p / 2) (p mod 2)) -> Q y) ->
  rok (set_edge n i e) Q.
Proof. intros He Hi HQ. unfold set_edge. eapply rok_row; [exact He|exact Hi|reflexivity|reflexivity|exact HQ]. Qed.

Lemma aprt_table {A} (x : arr A) n f : aprt x (2 * n) (fun p => p < 2 * n) (fun p => f (p / 2) (p mod 2)) -> table x 2 n f.
Proof. intros H. eapply aprt_aval; [|exact H]. auto. Qed.

Section Prepare.
  Context {K : ofops} (L : ofield_laws K) (sq : K -> K) (SQ : sqrt_laws sq).
  Add Ring curve_ring : (rl_ring K (fl_ring K (ol_field K L))).

  Lemma run_prepare_curve (m : curve2d K) V E x e : curve_is m V E x e ->
    (forall i h, i < E -> h < 2 -> e i h < V) ->
    rok (prepare_curve2d sq m) (fun r => curve_is r V E x e /\ curve_normals r E x e).
  Proof.
    intros (EV & EE & Tx & Te & Ln & Lg) HE. unfold prepare_curve2d. rewrite EE, EV.
    set (nn := fun i h => if h =? 0 then (x (e i 1%nat) 1%nat - x (e i 0%nat) 1%nat)%F
                          else (x (e i 0%nat) 0%nat - x (e i 1%nat) 0%nat)%F).
    set (g := fun i => sq (nn i 0%nat * nn i 0%nat + nn i 1%nat * nn i 1%nat)%F).
    apply rok_bind.
    apply (rok_for (fun i s =>
      aprt (fst s) (2 * E) (fun p => p < 2 * i) (fun p => fdiv (nn (p / 2) (p mod 2)) (g (p / 2))) /\
      aprt (snd s) E (fun p => p < i) g)).
    - split; split; cbn [fst snd]; auto; intros; lia.
    - intros i [n g'] Hi [Hn Hg]; cbn [fst snd] in *. unfold prepare_edge.
      rewrite !(tget _ _ _ _ i _ Te) by lia. cbn [rbind].
      rewrite !(tget _ _ _ _ _ _ Tx) by (lia || (apply HE; lia)). cbn [rbind].
      apply rok_bind. eapply rok_aset_next; [exact Hg|lia|reflexivity|]. intros g2 Hg2.
      change (rok (rbind (aset n (2 * i + 0) (nn i 0%nat / g i)%F) (fun n =>
        rbind (aset n (2 * i + 1) (nn i 1%nat / g i)%F) (fun n => Ok (n, g2))))
        (fun s => aprt (fst s) (2 * E) (fun p => p < 2 * S i) (fun p => fdiv (nn (p / 2) (p mod 2)) (g (p / 2))) /\
                  aprt (snd s) E (fun p => p < S i) g)).
      apply rok_bind. eapply rok_aset_next; [rewrite Nat.add_0_r; exact Hn|lia| |].
      { destruct (divmod 2 i 0 ltac:(lia)) as [E1 E2]. rewrite Nat.add_0_r in *. rewrite E1, E2. reflexivity. }
      rewrite Nat.add_0_r. replace (S (2 * i)) with (2 * i + 1) by lia. intros n1 Hn1.
      apply rok_bind. eapply rok_aset_next; [exact Hn1|lia| |].
      { destruct (divmod 2 i 1 ltac:(lia)) as [-> ->]. reflexivity. }
      intros n2 Hn2. cbn [rok fst snd]. split; [|exact Hg2].
      eapply aprt_ext; [exact Hn2| |]; cbv beta; intros; [lia|reflexivity].
    - intros [n g'] [Hn Hg]; cbn [fst snd] in *. cbn [rok]. change (0 + E) with E in *.
      assert (An : table n 2 E (fun i h => (nn i h / g i)%F)) by (eapply aprt_aval; [|exact Hn]; auto).
      assert (Ag : aval g' E g) by (eapply aprt_aval; [|exact Hg]; auto).
      split.
      + unfold curve_is; cbn [c2_vertices c2_edges c2_x c2_e c2_n c2_g].
        exact (conj eq_refl (conj eq_refl (conj Tx (conj Te (conj (proj1 An) (proj1 Ag)))))).
      + exists (fun i h => (nn i h / g i)%F), g. split; [exact An|]. split; [exact Ag|].
        intros i Hi dx dy Hd. change (nn i 0) with dy.
        assert (E1 : nn i 1 = (- dx)%F) by (change (nn i 1) with (x (e i 0%nat) 0%nat - x (e i 1%nat) 0%nat)%F; unfold dx; ring). rewrite E1.
        assert (Gd : g i = sq (dx * dx + dy * dy)%F).
        { unfold g. rewrite E1. change (nn i 0) with dy. apply f_equal. ring. }
        assert (P : flt f0 (dx * dx + dy * dy)%F = true).
        { assert (Sp : forall z : K, z <> f0 -> flt f0 (z * z)%F = true).
          { intros z Hz. destruct (fle_cases L _ _ (fsq_nn L z)) as [Q|Q]; [|exact Q]. exfalso. apply Hz.
            transitivity (finv z * z * z)%F; [rewrite (fl_inv K (ol_field K L)) by exact Hz; ring|].
            transitivity (finv z * (z * z))%F; [ring|]. change (fmul z z) with (z * z)%F in Q. rewrite <- Q. ring. }
          assert (An' : forall u v : K, flt f0 u = true -> fle f0 v -> flt f0 (u + v)%F = true).
          { intros u v Hu Hv. destruct (fle_cases L _ _ Hv) as [Q|Q].
            - rewrite <- Q. replace (u + f0)%F with u by ring. exact Hu.
            - apply (flt_add_pos L); assumption. }
          destruct Hd as [Hd|Hd].
          - apply An'; [apply Sp; exact Hd|apply (fsq_nn L)].
          - replace (dx * dx + dy * dy)%F with (dy * dy + dx * dx)%F by ring.
            apply An'; [apply Sp; exact Hd|apply (fsq_nn L)]. }
        destruct (SQ (dx * dx + dy * dy)%F (olt_le (ofield_order L) _ _ P)) as [G1 G2].
        rewrite <- Gd in G1, G2.
        assert (G0 : flt f0 (g i) = true).
        { destruct (fle_cases L _ _ G1) as [Q|Q]; [|exact Q]. exfalso. rewrite <- Q in G2.
          replace (f0 * f0)%F with (@f0 K) in G2 by ring. rewrite <- G2, (ol_irrefl K L) in P. discriminate P. }
        assert (N : g i <> f0) by (apply not_eq_sym, (flt_ne L); exact G0).
        assert (C : forall z : K, (g i * (z / g i))%F = z).
        { intros z. unfold fdiv. transitivity (z * (g i * finv (g i)))%F; [ring|].
          rewrite (finv_r (ol_field K L)) by exact N. ring. }
        split; [exact G0|]. split; [exact G2|]. split; [apply C|]. split; [apply C|].
        unfold fdiv. transitivity (finv (g i) * finv (g i) * (dx * dx + dy * dy))%F; [ring|]. rewrite <- G2.
        transitivity ((finv (g i) * g i) * (finv (g i) * g i))%F; [ring|].
        rewrite (fl_inv K (ol_field K L)) by exact N. ring.
  Qed.

  Lemma new_prepared n x e (fx : nat -> nat -> K) : table x 2 n fx -> table e 2 n (cyc n) ->
    rok (prepare_curve2d sq (C2 n n x e (anew (2 * n)) (anew n)))
        (fun r => curve_is r n n fx (cyc n) /\ curve_normals r n fx (cyc n)).
  Proof.
    intros Hx He. apply run_prepare_curve.
    - unfold curve_is; cbn [c2_vertices c2_edges c2_x c2_e c2_n c2_g].
      refine (conj eq_refl (conj eq_refl (conj Hx (conj He (conj _ _))))); apply repeat_length.
    - intros i h Hi _. apply cyc_lt. exact Hi.
  Qed.

  (** ** Circle *)
  Variables sn cs : nat -> nat -> K.
  Lemma run_circle n r : 3 <= n ->
    let fx := fun i h => if h =? 0 then (r * sn i n)%F else (r * cs i n)%F in
    rok (new_circle_curve2d sq sn cs n r) (fun m => curve_is m n n fx (cyc n) /\ curve_normals m n fx (cyc n)).
  Proof.
    intros Hn fx. unfold new_circle_curve2d. apply rok_bind.
    apply rok_assert; [apply Nat.leb_le; exact Hn|]. cbn [new_curve2d c2_x c2_e c2_n c2_g].
    apply rok_bind.
    apply (rok_for (fun i s =>
      aprt (fst s) (2 * n) (fun p => p < 2 * i) (fun p => fx (p / 2) (p mod 2)) /\
      aprt (snd s) (2 * n) (fun p => p < 2 * i) (fun p => cyc n (p / 2) (p mod 2)))).
    - split; cbn [fst snd]; apply anew_prt; intros; lia.
    - intros i [x e] Hi [Hx He]; cbn [fst snd] in *. apply rok_bind. unfold set_vertex.
      eapply rok_row; [exact Hx|lia|reflexivity|reflexivity|]. intros x' Hx'. apply rok_bind.
      apply rok_set_edge; [exact He|lia|]. intros e' He'. cbn [rok fst snd]. split; assumption.
    - intros [x e] [Hx He]; cbn [fst snd] in *. apply new_prepared; apply aprt_table; assumption.
  Qed.
End Prepare.
