(** * Polygons in the plane: square and star *)
From Coq Require Import Arith Lia List Bool Ring.
From Verif Require Import Fld Ord Prog Arr HmSpec Tri2d Tri2dP Surf SurfSpec SurfP SurfP2 SurfP5 Curve CurveSpec CurveP.
Import ListNotations.
Local Open Scope nat_scope.

Lemma rok_row_prt {A} (x : arr A) n (P : nat -> Prop) (f : nat -> nat -> A) i u v (Q : arr A -> Prop) :
  aprt x (2 * n) P (fun p => f (p / 2) (p mod 2)) -> i < n -> u = f i 0 -> v = f i 1 ->
  (forall y, aprt y (2 * n) (fun p => p / 2 = i \/ P p) (fun p => f (p / 2) (p mod 2)) -> Q y) ->
  rok (rbind (aset x (2 * i + 0) u) (fun x => aset x (2 * i + 1) v)) Q.
Proof.
  intros Hx Hi Hu Hv HQ. destruct (divmod 2 i 0 ltac:(lia)) as [A0 B0]. destruct (divmod 2 i 1 ltac:(lia)) as [A1 B1].
  apply rok_bind. eapply rok_aset_prt; [exact Hx|lia|]. intros y Hy.
  eapply rok_aset_prt; [exact Hy|lia|]. intros z Hz. apply HQ.
  eapply aprt_ext; [exact Hz| |]; cbv beta.
  - intros p Hp [H|H]; [|right; right; exact H].
    pose proof (Nat.div_mod p 2 ltac:(lia)). pose proof (Nat.mod_upper_bound p 2 ltac:(lia)). lia.
  - intros p Hp _. unfold afupd. destruct (Nat.eqb_spec p (2 * i + 1)) as [->|_].
    { rewrite A1, B1. exact Hv. }
    destruct (Nat.eqb_spec p (2 * i + 0)) as [->|_]; [|reflexivity]. rewrite A0, B0. exact Hu.
Qed.

Lemma run_edges n : rok (rfor 0 n (fun i e => set_edge n i e) (anew (2 * n))) (fun e => table e 2 n (cyc n)).
Proof.
  apply (rok_for (fun i e => aprt e (2 * n) (fun p => p < 2 * i) (fun p => cyc n (p / 2) (p mod 2)))).
  - apply anew_prt. intros; lia.
  - intros i e Hi He. apply rok_set_edge; [exact He|lia|auto].
  - intros e He. apply aprt_table. exact He.
Qed.

Section Shapes.
  Context {K : ofops} (L : ofield_laws K) (sq : K -> K) (SQ : sqrt_laws sq).
  Add Ring curve_ring2 : (rl_ring K (fl_ring K (ol_field K L))).

  Lemma fnat_pos n : 0 < n -> flt f0 (fnat n : K) = true.
  Proof.
    induction n as [|n IH]; [lia|]. intros _. cbn [fnat]. destruct n as [|n].
    - cbn [fnat]. replace (f0 + f1)%F with (@f1 K) by ring. apply (f1_pos L).
    - apply (flt_add_pos L); [apply IH; lia|apply (f1_pos L)].
  Qed.
  Lemma fnat_ne n : 0 < n -> (fnat n : K) <> f0.
  Proof. intros H. apply not_eq_sym, (flt_ne L), fnat_pos, H. Qed.
  Lemma cancel (D c : K) : D <> f0 -> (D * (c / D))%F = c.
  Proof.
    intros H. unfold fdiv. transitivity (c * (D * finv D))%F; [ring|].
    rewrite (finv_r (ol_field K L)) by exact H. ring.
  Qed.

  (** ** Square *)
  Definition square_x (n : nat) (a : K) (i h : nat) : K :=
    let t := n / 4 in let l := n / 2 in let b := 3 * n / 4 in
    if i <? t then (if h =? 0 then a - f2 * a * fnat i / fnat t else a)%F
    else if i <? l then (if h =? 0 then - a else a - f2 * a * fnat (i - t) / fnat (l - t))%F
    else if i <? b then (if h =? 0 then - a + f2 * a * fnat (i - l) / fnat (b - l) else - a)%F
    else (if h =? 0 then a else - a + f2 * a * fnat (i - b) / fnat (n - b))%F.

  Lemma quarters n : 4 <= n -> 0 < n / 4 < n / 2 /\ n / 2 < 3 * n / 4 < n.
  Proof.
    intros H.
    pose proof (Nat.div_mod n 4 ltac:(lia)). pose proof (Nat.mod_upper_bound n 4 ltac:(lia)).
    pose proof (Nat.div_mod n 2 ltac:(lia)). pose proof (Nat.mod_upper_bound n 2 ltac:(lia)).
    pose proof (Nat.div_mod (3 * n) 4 ltac:(lia)). pose proof (Nat.mod_upper_bound (3 * n) 4 ltac:(lia)). lia.
  Qed.

  Lemma square_steps n a : 4 <= n -> equal_steps n 4 (square_index n) (square_corner a) (square_x n a).
  Proof.
    intros Hn. destruct (quarters n Hn) as [[T1 T2] [T3 T4]].
    split; [reflexivity|]. split; [reflexivity|].
    assert (Z : forall c D : K, (c * f0 / D)%F = f0) by (intros; unfold fdiv; ring).
    assert (Z1 : forall c D : K, (a - c * f0 / D)%F = a) by (intros; rewrite Z; ring).
    assert (Z2 : forall c D : K, (- a + c * f0 / D)%F = (- a)%F) by (intros; rewrite Z; ring).
    assert (S1 : forall J D : K, D <> f0 -> (D * (a - f2 * a * J / D - a))%F = (J * (- a - a))%F).
    { intros J D HD. transitivity (- (D * (f2 * a * J / D)))%F; [unfold fdiv; ring|]. rewrite cancel by exact HD.
      unfold f2. ring. }
    assert (S2 : forall J D : K, D <> f0 -> (D * (- a + f2 * a * J / D - - a))%F = (J * (a - - a))%F).
    { intros J D HD. transitivity (D * (f2 * a * J / D))%F; [unfold fdiv; ring|]. rewrite cancel by exact HD.
      unfold f2. ring. }
    assert (S0 : forall c J D : K, (D * (c - c))%F = (J * (c - c))%F) by (intros; ring).
    intros k Hk. destruct k as [|[|[|[|k]]]]; [| | | |lia]; cbn [square_index].
    - split; [exact T1|]. split.
      + intros h Hh. unfold square_x. destruct (Nat.ltb_spec 0 (n / 4)); [|lia].
        destruct h as [|[|h]]; [|reflexivity|lia]. cbn [Nat.eqb square_corner fnat]. apply Z1.
      + intros j h Hh Hj. cbn [Nat.add] in *. rewrite Nat.sub_0_r in *. unfold square_x.
        destruct (Nat.ltb_spec j (n / 4)); [|lia].
        destruct h as [|[|h]]; [| |lia]; cbn [Nat.eqb Nat.add square_corner]; [|apply S0].
        apply S1, fnat_ne. lia.
    - split; [exact T2|]. split.
      + intros h Hh. unfold square_x. destruct (Nat.ltb_spec (n / 4) (n / 4)); [lia|].
        destruct (Nat.ltb_spec (n / 4) (n / 2)); [|lia]. rewrite Nat.sub_diag.
        destruct h as [|[|h]]; [reflexivity| |lia]. cbn [Nat.eqb square_corner fnat]. apply Z1.
      + intros j h Hh Hj. unfold square_x. destruct (Nat.ltb_spec (n / 4 + j) (n / 4)); [lia|].
        destruct (Nat.ltb_spec (n / 4 + j) (n / 2)); [|lia]. rewrite Nat.add_sub_swap, Nat.sub_diag by lia.
        destruct h as [|[|h]]; [| |lia]; cbn [Nat.eqb Nat.add square_corner]; [apply S0|].
        apply S1, fnat_ne. lia.
    - split; [exact T3|]. split.
      + intros h Hh. unfold square_x. destruct (Nat.ltb_spec (n / 2) (n / 4)); [lia|].
        destruct (Nat.ltb_spec (n / 2) (n / 2)); [lia|]. destruct (Nat.ltb_spec (n / 2) (3 * n / 4)); [|lia].
        rewrite Nat.sub_diag.
        destruct h as [|[|h]]; [|reflexivity|lia]. cbn [Nat.eqb square_corner fnat]. apply Z2.
      + intros j h Hh Hj. unfold square_x. destruct (Nat.ltb_spec (n / 2 + j) (n / 4)); [lia|].
        destruct (Nat.ltb_spec (n / 2 + j) (n / 2)); [lia|]. destruct (Nat.ltb_spec (n / 2 + j) (3 * n / 4)); [|lia].
        rewrite Nat.add_sub_swap, Nat.sub_diag by lia.
        destruct h as [|[|h]]; [| |lia]; cbn [Nat.eqb Nat.add square_corner]; [|apply S0].
        apply S2, fnat_ne. lia.
    - split; [exact T4|]. set (b := 3 * n / 4) in *. split.
      + intros h Hh. unfold square_x. fold b. destruct (Nat.ltb_spec b (n / 4)); [lia|].
        destruct (Nat.ltb_spec b (n / 2)); [lia|]. destruct (Nat.ltb_spec b b); [lia|].
        rewrite Nat.sub_diag.
        destruct h as [|[|h]]; [reflexivity| |lia]. cbn [Nat.eqb square_corner fnat]. apply Z2.
      + intros j h Hh Hj. unfold square_x. fold b. destruct (Nat.ltb_spec (b + j) (n / 4)); [lia|].
        destruct (Nat.ltb_spec (b + j) (n / 2)); [lia|]. destruct (Nat.ltb_spec (b + j) b); [lia|].
        rewrite Nat.add_sub_swap, Nat.sub_diag by lia.
        destruct h as [|[|h]]; [| |lia]; cbn [Nat.eqb Nat.add square_corner]; [apply S0|].
        apply S2, fnat_ne. lia.
  Qed.

  Lemma run_square n a : 4 <= n ->
    let fx := square_x n (a * (f1 / f2))%F in
    rok (new_square_curve2d sq n a) (fun m => curve_is m n n fx (cyc n) /\ curve_normals m n fx (cyc n)).
  Proof.
    intros Hn fx. destruct (quarters n Hn) as [[T1 T2] [T3 T4]].
    unfold new_square_curve2d. apply rok_bind.
    apply rok_assert; [apply Nat.leb_le; exact Hn|]. cbn [new_curve2d c2_x c2_e c2_n c2_g].
    set (a' := (a * (f1 / f2))%F) in *.
    set (Inv := fun i (x : arr K) => aprt x (2 * n) (fun p => p < 2 * i) (fun p => fx (p / 2) (p mod 2))).
    apply rok_bind. apply (rok_for Inv).
    { apply anew_prt. intros; lia. }
    { intros i x Hi Hx. unfold set_vertex. eapply rok_row; [exact Hx|lia| | |auto];
        unfold fx, square_x; destruct (Nat.ltb_spec i (n / 4)); try lia; reflexivity. }
    intros x1 H1. apply rok_bind. apply (rok_for Inv).
    { exact H1. }
    { intros i x Hi Hx. unfold set_vertex. eapply rok_row; [exact Hx|lia| | |auto];
        unfold fx, square_x; destruct (Nat.ltb_spec i (n / 4)); try lia;
        destruct (Nat.ltb_spec i (n / 2)); try lia; reflexivity. }
    intros x2 H2. replace (n / 4 + (n / 2 - n / 4)) with (n / 2) in H2 by lia. apply rok_bind. apply (rok_for Inv).
    { exact H2. }
    { intros i x Hi Hx. unfold set_vertex. eapply rok_row; [exact Hx|lia| | |auto];
        unfold fx, square_x; destruct (Nat.ltb_spec i (n / 4)); try lia;
        destruct (Nat.ltb_spec i (n / 2)); try lia; destruct (Nat.ltb_spec i (3 * n / 4)); try lia; reflexivity. }
    intros x3 H3. replace (n / 2 + (3 * n / 4 - n / 2)) with (3 * n / 4) in H3 by lia. apply rok_bind. apply (rok_for Inv).
    { exact H3. }
    { intros i x Hi Hx. unfold set_vertex. eapply rok_row; [exact Hx|lia| | |auto];
        unfold fx, square_x; destruct (Nat.ltb_spec i (n / 4)); try lia;
        destruct (Nat.ltb_spec i (n / 2)); try lia; destruct (Nat.ltb_spec i (3 * n / 4)); try lia; reflexivity. }
    intros x4 H4. replace (3 * n / 4 + (n - 3 * n / 4)) with n in H4 by lia.
    apply rok_bind. eapply rok_conseq; [apply run_edges|]. intros e He.
    apply (new_prepared L sq SQ); [apply aprt_table; exact H4|exact He].
  Qed.

  (** ** Star *)
  Variables sn cs : nat -> nat -> K.
  Definition star_x (d : nat) (c : nat -> nat -> K) (v h : nat) : K :=
    if v mod d =? 0 then c (v / d) h
    else (c (v / d)%nat h + (c ((v / d + 1) mod 16)%nat h - c (v / d)%nat h) * (fnat (v mod d) / fnat d))%F.

  Lemma star_steps d c : 0 < d -> equal_steps (d * 16) 16 (fun k => d * k) c (star_x d c).
  Proof.
    intros Hd. split; [lia|]. split; [reflexivity|]. intros k Hk. split; [nia|].
    assert (X : forall h, star_x d c (d * k) h = c k h).
    { intros h. unfold star_x. destruct (divmod d k 0 Hd) as [A B]. rewrite Nat.add_0_r in A, B.
      rewrite A, B. reflexivity. }
    split; [intros h _; apply X|]. intros j h Hh Hj.
    replace (d * S k - d * k) with d by nia. assert (Jd : j < d) by nia.
    replace (if k + 1 =? 16 then 0 else k + 1) with ((k + 1) mod 16).
    2:{ destruct (Nat.eqb_spec (k + 1) 16) as [->|]; [reflexivity|apply Nat.mod_small; lia]. }
    unfold star_x. destruct (divmod d k j Jd) as [-> ->].
    destruct (Nat.eqb_spec j 0) as [->|Hj0]; [cbn [fnat]; ring|].
    set (u := c k h). set (w := c ((k + 1) mod 16) h).
    transitivity ((w - u) * (fnat d * (fnat j / fnat d)))%F; [ring|].
    rewrite cancel by (apply fnat_ne; exact Hd). ring.
  Qed.

  Lemma star_corner_eq r i : i < 16 ->
    star_corner sn cs r i 0 = (sn i 16%nat * (if (i mod 2 =? 0)%nat then r else f1 / (f2 * f2) * r))%F /\
    star_corner sn cs r i 1 = (cs i 16%nat * (if (i mod 2 =? 0)%nat then r else f1 / (f2 * f2) * r))%F.
  Proof.
    intros H. assert (E : (i mod 2 =? 0) = Nat.even i).
    { do 16 (destruct i as [|i]; [reflexivity|]). lia. }
    rewrite E. unfold star_corner; cbv zeta; cbn [Nat.eqb]. destruct (Nat.even i); split; unfold fdiv; change (0 =? 0) with true; change (1 =? 0) with false; cbv iota; ring.
  Qed.

  Lemma run_star d r : 0 < d ->
    let fx := star_x d (star_corner sn cs r) in let n := d * 16 in
    rok (new_star_curve2d sq sn cs n r) (fun m => curve_is m n n fx (cyc n) /\ curve_normals m n fx (cyc n)).
  Proof.
    intros Hd fx n. unfold new_star_curve2d.
    apply rok_bind, rok_assert; [apply Nat.leb_le; unfold n; lia|].
    apply rok_bind, rok_assert; [apply Nat.eqb_eq, Nat.mod_mul; lia|].
    assert (Dd : n / 16 = d) by (apply Nat.div_mul; lia). rewrite Dd.
    apply rok_bind, rok_assert; [apply Nat.eqb_refl|]. cbn [new_curve2d c2_x c2_e c2_n c2_g].
    assert (Xc : forall k h, fx (d * k) h = star_corner sn cs r k h).
    { intros k h. unfold fx, star_x. destruct (divmod d k 0 Hd) as [A B]. rewrite Nat.add_0_r in A, B.
      rewrite A, B. reflexivity. }
    apply rok_bind.
    apply (rok_for (fun i x => aprt x (2 * n) (fun p => (p / 2) mod d = 0 /\ p / 2 < d * i) (fun p => fx (p / 2) (p mod 2)))).
    { apply anew_prt. intros; lia. }
    { intros i x Hi Hx. cbn [Nat.add] in Hi. destruct (star_corner_eq r i ltac:(lia)) as [C0 C1]. unfold set_vertex.
      eapply rok_row_prt; [exact Hx|unfold n; nia|rewrite Xc; symmetry; exact C0|rewrite Xc; symmetry; exact C1|].
      intros y Hy. eapply aprt_ext; [exact Hy| |reflexivity]. cbv beta. intros p _ [H1 H2].
      destruct (Nat.eq_dec (p / 2) (d * i)) as [E|N]; [left; exact E|]. right. split; [exact H1|].
      apply (Nat.mod_divides) in H1; [|lia]. destruct H1 as [c Hc]. rewrite Hc in *. clear Hc.
      apply Nat.mul_lt_mono_pos_l in H2; [|exact Hd]. apply Nat.mul_lt_mono_pos_l; [exact Hd|].
      destruct (Nat.eq_dec c i) as [->|]; [contradiction N; reflexivity|lia]. }
    intros x0 Hx0. apply rok_bind.
    set (P := fun nu p => p / 2 < nu \/ (p / 2) mod d = 0).
    set (Inv := fun nu (s : nat * arr K * arr nat) => fst (fst s) = nu /\
      aprt (snd (fst s)) (2 * n) (P nu) (fun p => fx (p / 2) (p mod 2)) /\
      aprt (snd s) (2 * n) (fun p => p < 2 * nu) (fun p => cyc n (p / 2) (p mod 2))).
    apply (rok_for (fun i => Inv (d * i))).
    { split; [cbn; lia|]. cbn [fst snd]. split; [|apply anew_prt; intros; lia].
      eapply aprt_ext; [exact Hx0| |reflexivity]. cbv beta. intros p Hp [H|H]; [lia|]. split; [exact H|].
      apply Nat.div_lt_upper_bound; unfold n in *; lia. }
    { intros i [[nu x] e] Hi (E & Hx & He); cbn [fst snd] in *. subst nu. cbn [Nat.add] in Hi.
      assert (Ln : d * i < n) by (unfold n; nia).
      apply rok_bind. apply rok_set_edge; [exact He|exact Ln|]. intros e1 He1.
      apply (rok_for (fun j => Inv (d * i + j))).
      { split; [reflexivity|]. cbn [fst snd]. split; [|replace (d * i + 1) with (S (d * i)) by lia; exact He1].
        eapply aprt_ext; [exact Hx| |reflexivity]. unfold P. intros p _ [H|H]; [|right; exact H].
        destruct (Nat.eq_dec (p / 2) (d * i)) as [E|N]; [right|left; lia].
        rewrite E. destruct (divmod d i 0 Hd) as [_ B]. rewrite Nat.add_0_r in B. exact B. }
      { intros j [[nu x1] e2] Hj (E & Hx1 & He2); cbn [fst snd] in *. subst nu.
        assert (Jd : j < d) by lia. assert (Lj : d * i + j < n) by (unfold n; nia).
        apply rok_bind. unfold star_vertex.
        set (k := (i + 1) mod 16). assert (Kk : k < 16) by (apply Nat.mod_upper_bound; lia).
        assert (G : forall v h, v < 16 -> h < 2 -> aget x1 (2 * (d * v) + h) = Ok (star_corner sn cs r v h)).
        { intros v h Hv Hh. rewrite (aprt_get _ _ _ _ (2 * (d * v) + h) Hx1).
          - cbv beta. destruct (divmod 2 (d * v) h Hh) as [-> ->]. rewrite Xc. reflexivity.
          - unfold n. nia.
          - right. destruct (divmod 2 (d * v) h Hh) as [-> _].
            destruct (divmod d v 0 Hd) as [_ B]. rewrite Nat.add_0_r in B. exact B. }
        rewrite (G i 0), (G k 0), (G i 1), (G k 1) by lia. cbn [rbind].
        apply rok_bind. unfold set_vertex.
        assert (F : forall h, fx (d * i + j) h = (star_corner sn cs r i h +
          (star_corner sn cs r k h - star_corner sn cs r i h) * (fnat j / fnat d))%F).
        { intros h. unfold fx, star_x. destruct (divmod d i j Jd) as [-> ->].
          destruct (Nat.eqb_spec j 0); [lia|]. reflexivity. }
        eapply rok_row_prt; [exact Hx1|exact Lj|rewrite F; reflexivity|rewrite F; reflexivity|].
        intros x2 Hx2. apply rok_bind. apply rok_set_edge; [exact He2|exact Lj|]. intros e3 He3.
        cbn [rok]. split; [cbn [fst]; lia|]. cbn [fst snd].
        replace (d * i + S j) with (S (d * i + j)) by lia. split; [|exact He3].
        eapply aprt_ext; [exact Hx2| |reflexivity]. unfold P. intros p _ [H|H]; [|right; right; exact H].
        destruct (Nat.eq_dec (p / 2) (d * i + j)); [left; assumption|right; left; lia]. }
      intros s Hs. replace (d * S i) with (d * i + (1 + (d - 1))) by lia. exact Hs. }
    intros [[nu x] e] (E & Hx & He); cbn [fst snd] in *. change (d * (0 + 16)) with n in *. subst nu.
    apply rok_bind, rok_assert; [apply Nat.eqb_refl|].
    apply (new_prepared L sq SQ); apply aprt_table; [|exact He].
    eapply aprt_ext; [exact Hx| |reflexivity]. unfold P. intros p Hp _. left. apply Nat.div_lt_upper_bound; lia.
  Qed.
End Shapes.
