(** * Surface meshes: regular refinement *)
From Coq Require Import Arith ZArith Lia List Bool.
From Verif Require Import Fld Prog Arr HmSpec Tri2d Tri2dP Tri2dP2 Surf SurfSpec SurfP SurfP2.
Import ListNotations.
Local Open Scope nat_scope.

Lemma nx_3 j : j < 3 -> nx (nx (nx j)) = j.
Proof. intros H. destruct j as [|[|[|j]]]; try lia; reflexivity. Qed.

Section Fine.
  Context {K : fops} (w : sview K).
  Notation V := (vV w). Notation E := (vE w). Notation T := (vT w).

  (** The half of the edge [k] at the vertex [v]. *)
  Definition hv (k v : nat) : nat := 2 * k + (if ve w k 1 =? v then 1 else 0).

  Definition fe (i h : nat) : nat :=
    if i <? 2 * E then
      match i mod 2, h with
      | 0, 0 => ve w (i / 2) 0
      | 0, _ => V + i / 2
      | _, 0 => V + i / 2
      | _, _ => ve w (i / 2) 1
      end
    else V + vs w ((i - 2 * E) / 3) (match h with 0 => nx ((i - 2 * E) mod 3) | _ => (i - 2 * E) mod 3 end).
  Definition fs (i j : nat) : nat :=
    let t := i / 4 in let q := i mod 4 in
    if q <? 3 then
      match j with
      | 0 => hv (vs w t q) (vt w t (nx (nx q)))
      | 1 => hv (vs w t (nx q)) (vt w t (nx (nx q)))
      | _ => 2 * E + 3 * t + q
      end
    else 2 * E + 3 * t + j.
  Definition ft (i j : nat) : nat :=
    let t := i / 4 in let q := i mod 4 in
    if q <? 3 then
      match j with
      | 0 => V + vs w t (nx q)
      | 1 => V + vs w t q
      | _ => vt w t (nx (nx q))
      end
    else V + vs w t (nx (nx j)).
  Definition fx (i j : nat) : K :=
    if i <? V then vx w i j else (half K * (vx w (ve w (i - V) 0) j + vx w (ve w (i - V) 1) j))%F.
  Definition fine : sview K := SV (V + E) (2 * E + 3 * T) (4 * T) fx fe ft fs.

  Lemma fe_half k o h : k < E -> o < 2 -> fe (2 * k + o) h =
    match o, h with 0, 0 => ve w k 0 | 0, _ => V + k | _, 0 => V + k | _, _ => ve w k 1 end.
  Proof.
    intros Hk Ho. unfold fe. destruct (Nat.ltb_spec (2 * k + o) (2 * E)); [|lia].
    destruct (divmod 2 k o Ho) as [-> ->]. reflexivity.
  Qed.
  Lemma fe_in t q h : q < 3 -> fe (2 * E + 3 * t + q) h = V + vs w t (match h with 0 => nx q | _ => q end).
  Proof.
    intros Hq. unfold fe. destruct (Nat.ltb_spec (2 * E + 3 * t + q) (2 * E)); [lia|].
    replace (2 * E + 3 * t + q - 2 * E) with (3 * t + q) by lia.
    destruct (divmod 3 t q Hq) as [-> ->]. destruct h; reflexivity.
  Qed.
  Lemma fs_corner t q j : q < 3 -> fs (4 * t + q) j =
    match j with 0 => hv (vs w t q) (vt w t (nx (nx q))) | 1 => hv (vs w t (nx q)) (vt w t (nx (nx q)))
    | _ => 2 * E + 3 * t + q end.
  Proof.
    intros Hq. unfold fs. destruct (divmod 4 t q ltac:(lia)) as [-> ->].
    destruct (Nat.ltb_spec q 3); [reflexivity|lia].
  Qed.
  Lemma fs_mid t j : fs (4 * t + 3) j = 2 * E + 3 * t + j.
  Proof. unfold fs. destruct (divmod 4 t 3 ltac:(lia)) as [-> ->]. reflexivity. Qed.
  Lemma ft_corner t q j : q < 3 -> ft (4 * t + q) j =
    match j with 0 => V + vs w t (nx q) | 1 => V + vs w t q | _ => vt w t (nx (nx q)) end.
  Proof.
    intros Hq. unfold ft. destruct (divmod 4 t q ltac:(lia)) as [-> ->].
    destruct (Nat.ltb_spec q 3); [reflexivity|lia].
  Qed.
  Lemma ft_mid t j : ft (4 * t + 3) j = V + vs w t (nx (nx j)).
  Proof. unfold ft. destruct (divmod 4 t 3 ltac:(lia)) as [-> ->]. reflexivity. Qed.
  Lemma fx_old i j : i < V -> fx i j = vx w i j.
  Proof. intros H. unfold fx. destruct (Nat.ltb_spec i V); [reflexivity|lia]. Qed.
  Lemma fx_new k j : fx (V + k) j = (half K * (vx w (ve w k 0) j + vx w (ve w k 1) j))%F.
  Proof.
    unfold fx. destruct (Nat.ltb_spec (V + k) V); [lia|]. replace (V + k - V) with k by lia. reflexivity.
  Qed.
End Fine.

(** Entries of tables that are filled from left to right. *)
Definition flat {A} (c : nat) (f : nat -> nat -> A) (p : nat) : A := f (p / c) (p mod c).
Lemma flat_at {A} c (f : nat -> nat -> A) i j : j < c -> flat c f (c * i + j) = f i j.
Proof. intros H. unfold flat. destruct (divmod c i j H) as [-> ->]. reflexivity. Qed.
Lemma flat_get {A} c (f : nat -> nat -> A) (a : arr A) n l i j : aprt a n (fun p => p < l) (flat c f) ->
  c * i + j < n -> c * i + j < l -> j < c -> aget a (c * i + j) = Ok (f i j).
Proof. intros H Hn Hl Hj. rewrite (aprt_get _ _ _ _ _ H Hn Hl), flat_at by exact Hj. reflexivity. Qed.
Lemma flat_set {A} c (f : nat -> nat -> A) (a : arr A) n l i j x (Q : arr A -> Prop) :
  aprt a n (fun p => p < l) (flat c f) -> l = c * i + j -> l < n -> j < c -> x = f i j ->
  (forall a', aprt a' n (fun p => p < S l) (flat c f) -> Q a') -> rok (aset a (c * i + j) x) Q.
Proof.
  intros H -> Hn Hj Hx HQ. eapply rok_aset_next; [exact H|exact Hn| |exact HQ].
  rewrite flat_at by exact Hj. exact Hx.
Qed.

Section Run.
  Context {K : fops} (sq : K -> K) (m : surface3d K) (w : sview K) (Hm : surf_is m w) (Hw : surf_ok w).
  Notation V := (vV w). Notation E := (vE w). Notation T := (vT w).
  Notation NE := (2 * E + 3 * T).

  Lemma run_refine_old : rok (refine_old m (anew (3 * (V + E))))
    (fun s => snd s = V /\ aprt (fst s) (3 * (V + E)) (fun p => p < 3 * V) (flat 3 (fx w))).
  Proof.
    pose proof Hm as (EV & _ & _ & Tx & _). unfold refine_old. rewrite EV.
    apply (rok_for (fun i s => snd s = i /\ aprt (fst s) (3 * (V + E)) (fun p => p < 3 * i) (flat 3 (fx w)))).
    - split; [reflexivity|]. apply anew_prt. intros; lia.
    - intros i [x v] Hi [Ev Hx]; cbn [fst snd] in *. subst v. apply rok_bind.
      apply (rok_for (fun j x => aprt x (3 * (V + E)) (fun p => p < 3 * i + j) (flat 3 (fx w)))).
      + rewrite Nat.add_0_r. exact Hx.
      + intros j y Hj Hy. rewrite (tget _ _ _ _ i j Tx) by lia. cbn [rbind].
        eapply flat_set; [exact Hy|reflexivity|lia|lia|symmetry; apply fx_old; lia|].
        intros a' Ha'. eapply aprt_ext; [exact Ha'| |]; cbv beta; intros; [lia|reflexivity].
      + intros y Hy. cbn [rok fst snd]. split; [lia|].
        eapply aprt_ext; [exact Hy| |]; cbv beta; intros; [lia|reflexivity].
    - intros [x v] H. exact H.
  Qed.

  Lemma run_refine_mids x : aprt x (3 * (V + E)) (fun p => p < 3 * V) (flat 3 (fx w)) ->
    rok (refine_mids m (x, anew (2 * NE), V))
      (fun s => snd s = V + E /\ aval (fst (fst s)) (3 * (V + E)) (flat 3 (fx w)) /\
                aprt (snd (fst s)) (2 * NE) (fun p => p < 2 * (2 * E)) (flat 2 (fe w))).
  Proof.
    intros Hx. pose proof Hm as (EV & EE & _ & Tx & Te & _). pose proof Hw as [(HE & _) _].
    unfold refine_mids. rewrite EE.
    apply (rok_for (fun k s => snd s = V + k /\
       aprt (fst (fst s)) (3 * (V + E)) (fun p => p < 3 * (V + k)) (flat 3 (fx w)) /\
       aprt (snd (fst s)) (2 * NE) (fun p => p < 4 * k) (flat 2 (fe w)))).
    - cbn [fst snd]. rewrite Nat.add_0_r. split; [reflexivity|]. split; [exact Hx|]. apply anew_prt. intros; lia.
    - intros k [[y ne] v] Hk (Ev & Hy & Hn); cbn [fst snd] in *. subst v.
      rewrite (tget _ _ _ _ k 0 Te), (tget _ _ _ _ k 1 Te) by lia. cbn [rbind].
      apply rok_bind.
      apply (rok_for (fun j x => aprt x (3 * (V + E)) (fun p => p < 3 * (V + k) + j) (flat 3 (fx w)))).
      { rewrite Nat.add_0_r. exact Hy. }
      { intros j z Hj Hz.
        rewrite (tget _ _ _ _ (ve w k 0) j Tx), (tget _ _ _ _ (ve w k 1) j Tx) by (try apply HE; lia). cbn [rbind].
        eapply flat_set; [exact Hz|reflexivity|lia|lia|symmetry; apply fx_new|].
        intros a' Ha'. eapply aprt_ext; [exact Ha'| |]; cbv beta; intros; [lia|reflexivity]. }
      intros z Hz. replace (2 * k) with (2 * k + 0) by lia.
      apply rok_bind. eapply flat_set; [exact Hn|lia|lia|lia|rewrite fe_half by lia; reflexivity|]. intros n1 H1.
      apply rok_bind. eapply flat_set; [exact H1|lia|lia|lia|rewrite fe_half by lia; reflexivity|]. intros n2 H2.
      replace (2 * k + 0 + 1) with (2 * k + 1) by lia.
      apply rok_bind. eapply flat_set; [exact H2|lia|lia|lia|rewrite fe_half by lia; reflexivity|]. intros n3 H3.
      apply rok_bind. eapply flat_set; [exact H3|lia|lia|lia|rewrite fe_half by lia; reflexivity|]. intros n4 H4.
      cbn [rok fst snd]. split; [lia|]. split.
      + eapply aprt_ext; [exact Hz| |]; cbv beta; intros; [lia|reflexivity].
      + eapply aprt_ext; [exact H4| |]; cbv beta; intros; [lia|reflexivity].
    - intros [[y ne] v] (Ev & Hy & Hn); cbn [fst snd] in *. split; [exact Ev|]. split.
      + eapply aprt_aval; [|exact Hy]. cbv beta. intros; lia.
      + eapply aprt_ext; [exact Hn| |]; cbv beta; intros; [lia|reflexivity].
  Qed.

  Lemma choose_at a b v p q a0 a1 b0 b1 : v <> p -> v <> q -> p <> q ->
    (a0 = v /\ a1 = p) \/ (a0 = p /\ a1 = v) -> (b0 = q /\ b1 = v) \/ (b0 = v /\ b1 = q) ->
    choose_halves a b a0 a1 b0 b1 =
      Ok (2 * b + (if b1 =? v then 1 else 0), 2 * a + (if a1 =? v then 1 else 0),
          if a1 =? v then 0 else 1, if b1 =? v then 1 else 0).
  Proof.
    intros N1 N2 N3 A B. unfold choose_halves.
    assert (E1 : v =? p = false) by (apply Nat.eqb_neq; exact N1).
    assert (E2 : v =? q = false) by (apply Nat.eqb_neq; exact N2).
    assert (E3 : p =? q = false) by (apply Nat.eqb_neq; exact N3).
    assert (E4 : p =? v = false) by (rewrite Nat.eqb_sym; exact E1).
    assert (E5 : q =? v = false) by (rewrite Nat.eqb_sym; exact E2).
    destruct A as [[-> ->]|[-> ->]], B as [[-> ->]|[-> ->]];
      rewrite ?Nat.eqb_refl, ?E1, ?E2, ?E3, ?E4, ?E5, ?Nat.eqb_refl, ?Nat.add_0_r; reflexivity.
  Qed.

  (** The sides [j + 1] and [j] meet in the corner [j + 2]. *)
  Lemma halves_at t j : t < T -> j < 3 ->
    let a := vs w t (nx j) in let b := vs w t j in let v := vt w t (nx (nx j)) in
    choose_halves a b (ve w a 0) (ve w a 1) (ve w b 0) (ve w b 1) =
      Ok (hv w b v, hv w a v, if ve w a 1 =? v then 0 else 1, if ve w b 1 =? v then 1 else 0) /\
    (fe w (hv w a v) (if ve w a 1 =? v then 0 else 1) = V + a) /\
    (fe w (hv w b v) (if ve w b 1 =? v then 1 else 0) = v).
  Proof.
    intros Ht Hj a b v. pose proof Hw as [(_ & _ & HS & HD) HN].
    assert (Ha : a < E) by (apply HS; [exact Ht|apply nx_lt]).
    assert (Hb : b < E) by (apply HS; assumption).
    pose proof (HD t (nx j) Ht (nx_lt j)) as Da. pose proof (HD t j Ht Hj) as Db.
    rewrite (nx_3 j Hj) in Da. fold a b v in Da, Db.
    assert (N1 : v <> vt w t j /\ v <> vt w t (nx j) /\ vt w t j <> vt w t (nx j)).
    { destruct (HN t Ht) as (A & B & C). unfold v. destruct j as [|[|[|j]]]; cbn [nx]; try lia; auto. }
    destruct N1 as (N1 & N2 & N3). split; [|split].
    - unfold hv. apply (choose_at a b v (vt w t j) (vt w t (nx j))); auto.
    - unfold hv. destruct (ve w a 1 =? v); rewrite fe_half by lia; reflexivity.
    - unfold hv. destruct (Nat.eqb_spec (ve w b 1) v) as [Q|Q]; rewrite fe_half by lia; [exact Q|].
      destruct Db as [[B0 B1]|[B0 B1]]; [contradiction|exact B0].
  Qed.

  Definition cinv (t j : nat) (s : rstate) : Prop :=
    let '(ne, ns, nt, e, c) := s in
    e = 2 * E + 3 * t + j /\ c = 4 * t + j /\
    aprt ne (2 * NE) (fun p => p < 2 * (2 * E + 3 * t + j)) (flat 2 (fe w)) /\
    aprt ns (3 * (4 * T)) (fun p => p < 3 * (4 * t + j)) (flat 3 (fs w)) /\
    aprt nt (3 * (4 * T)) (fun p => p < 3 * (4 * t + j)) (flat 3 (ft w)).

  Lemma hv_lt k v : k < E -> hv w k v < 2 * E.
  Proof. intros H. unfold hv. destruct (ve w k 1 =? v); lia. Qed.

  Lemma run_corner t j s : t < T -> j < 3 -> cinv t j s -> rok (refine_corner m t j s) (cinv t (S j)).
  Proof.
    destruct s as [[[[ne ns] nt] e] c]. intros Ht Hj (-> & -> & Hne & Hns & Hnt).
    pose proof Hm as (EV & EE & ET & Tx & Te & Tt & Ts & _). pose proof Hw as [(_ & _ & HS & _) _].
    assert (Ha : vs w t (nx j) < E) by (apply HS; [exact Ht|apply nx_lt]).
    assert (Hb : vs w t j < E) by (apply HS; assumption).
    destruct (halves_at t j Ht Hj) as (EC & R0 & R2).
    unfold refine_corner. rewrite (nx_1 j Hj).
    rewrite (tget _ _ _ _ t (nx j) Ts), (tget _ _ _ _ t j Ts) by (assumption || apply nx_lt). cbn [rbind].
    set (a := vs w t (nx j)) in *. set (b := vs w t j) in *. set (v := vt w t (nx (nx j))) in *.
    cbv zeta in EC.
    rewrite (flat_get _ _ _ _ _ (2 * a + 1) 0 Hne), fe_half by lia. cbn [rbind].
    apply rok_bind. eapply flat_set; [exact Hne|lia|lia|lia|rewrite fe_in by exact Hj; reflexivity|]. intros n1 H1.
    rewrite (flat_get _ _ _ _ _ (2 * b + 1) 0 H1), fe_half by lia. cbn [rbind].
    apply rok_bind. eapply flat_set; [exact H1|lia|lia|lia|rewrite fe_in by exact Hj; reflexivity|]. intros n2 H2.
    rewrite (tget _ _ _ _ a 0 Te), (tget _ _ _ _ a 1 Te), (tget _ _ _ _ b 0 Te), (tget _ _ _ _ b 1 Te) by lia.
    cbn [rbind]. rewrite EC. cbn [rbind].
    pose proof (hv_lt a v Ha) as La. pose proof (hv_lt b v Hb) as Lb.
    assert (C0 : (if ve w a 1 =? v then 0 else 1) < 2) by (destruct (ve w a 1 =? v); lia).
    assert (C2 : (if ve w b 1 =? v then 1 else 0) < 2) by (destruct (ve w b 1 =? v); lia).
    apply rok_bind. eapply flat_set; [exact Hns|lia|lia|lia|rewrite fs_corner by exact Hj; reflexivity|]. intros s1 S1.
    apply rok_bind. eapply flat_set; [exact S1|lia|lia|lia|rewrite fs_corner by exact Hj; reflexivity|]. intros s2 S2.
    apply rok_bind. eapply flat_set; [exact S2|lia|lia|lia|rewrite fs_corner by exact Hj; lia|]. intros s3 S3'.
    rewrite (flat_get _ _ _ _ _ (hv w a v) _ H2) by lia. cbn [rbind]. rewrite R0.
    apply rok_bind. eapply flat_set; [exact Hnt|lia|lia|lia|rewrite ft_corner by exact Hj; reflexivity|]. intros t1 T1.
    replace (2 * E + 3 * t + j + 1 - 1) with (2 * E + 3 * t + j) by lia.
    rewrite (flat_get _ _ _ _ _ (2 * E + 3 * t + j) 1 H2), fe_in by lia. cbn [rbind].
    apply rok_bind. eapply flat_set; [exact T1|lia|lia|lia|rewrite ft_corner by exact Hj; reflexivity|]. intros t2 T2.
    rewrite (flat_get _ _ _ _ _ (hv w b v) _ H2) by lia. cbn [rbind]. rewrite R2.
    apply rok_bind. eapply flat_set; [exact T2|lia|lia|lia|rewrite ft_corner by exact Hj; reflexivity|]. intros t3 T3.
    cbn [rok cinv]. split; [lia|]. split; [lia|]. split; [|split].
    - eapply aprt_ext; [exact H2| |]; cbv beta; intros; [lia|reflexivity].
    - eapply aprt_ext; [exact S3'| |]; cbv beta; intros; [lia|reflexivity].
    - eapply aprt_ext; [exact T3| |]; cbv beta; intros; [lia|reflexivity].
  Qed.

  Lemma run_centre t s : t < T -> cinv t 3 s -> rok (refine_centre s) (cinv (S t) 0).
  Proof.
    destruct s as [[[[ne ns] nt] e] c]. intros Ht (-> & -> & Hne & Hns & Hnt).
    unfold refine_centre. apply rok_bind.
    apply (rok_for (fun i s =>
      aprt (fst s) (3 * (4 * T)) (fun p => p < 3 * (4 * t + 3) + i) (flat 3 (fs w)) /\
      aprt (snd s) (3 * (4 * T)) (fun p => p < 3 * (4 * t + 3) + i) (flat 3 (ft w)))).
    - cbn [fst snd]. rewrite Nat.add_0_r. auto.
    - intros i [ns1 nt1] Hi [H1 H2]; cbn [fst snd] in *.
      replace (2 * E + 3 * t + 3 - 3) with (2 * E + 3 * t) by lia.
      apply rok_bind. eapply flat_set; [exact H1|reflexivity|lia|lia|rewrite fs_mid; reflexivity|]. intros ns2 H1'.
      rewrite (nx_1 i) by lia. pose proof (nx_lt i).
      rewrite (flat_get _ _ _ _ _ (2 * E + 3 * t + nx i) 0 Hne), fe_in by lia. cbn [rbind].
      apply rok_bind. eapply flat_set; [exact H2|reflexivity|lia|lia|rewrite ft_mid; reflexivity|]. intros nt2 H2'.
      cbn [rok fst snd]. split.
      + eapply aprt_ext; [exact H1'| |]; cbv beta; intros; [lia|reflexivity].
      + eapply aprt_ext; [exact H2'| |]; cbv beta; intros; [lia|reflexivity].
    - intros [ns1 nt1] [H1 H2]; cbn [fst snd] in *. cbn [rok cinv]. split; [lia|]. split; [lia|]. split; [|split].
      + eapply aprt_ext; [exact Hne| |]; cbv beta; intros; [lia|reflexivity].
      + eapply aprt_ext; [exact H1| |]; cbv beta; intros; [lia|reflexivity].
      + eapply aprt_ext; [exact H2| |]; cbv beta; intros; [lia|reflexivity].
  Qed.

  Hypothesis Hft : forall i j, i < 4 * T -> j < 3 -> ft w i j < V + E.

  Lemma run_refine : rok (refine_red_surface3d sq m)
    (fun r => surf_is r (fine w) /\ has_normals r (4 * T) (unit_n sq (fine w)) (gram sq (fine w))).
  Proof.
    pose proof Hm as (EV & EE & ET & _).
    unfold refine_red_surface3d, new_surface3d; cbn [s3_x s3_e s3_t s3_s s3_n s3_g]. rewrite EV, EE, ET.
    apply rok_bind. eapply rok_conseq; [apply run_refine_old|]. intros [x v] [Ev Hx]; cbn [fst snd] in *. subst v.
    apply rok_bind. eapply rok_conseq; [apply run_refine_mids; exact Hx|].
    intros [[x' ne] v] (Ev & Hx' & Hne); cbn [fst snd] in *.
    apply rok_bind. apply (rok_for (fun t s => cinv t 0 s)).
    - cbn [cinv]. split; [lia|]. split; [lia|]. split; [|split; apply anew_prt; intros; lia].
      eapply aprt_ext; [exact Hne| |]; cbv beta; intros; [lia|reflexivity].
    - intros t s Ht Hs. apply rok_bind. apply (rok_for (fun j s => cinv t j s)).
      + exact Hs.
      + intros j s' Hj Hs'. apply run_corner; [lia|lia|exact Hs'].
      + intros s' Hs'. apply run_centre; [lia|exact Hs'].
    - intros [[[[ne' ns] nt] e] c] (-> & -> & H1 & H2 & H3).
      apply rok_bind. apply rok_assert; [apply Nat.eqb_eq; lia|].
      apply rok_bind. apply rok_assert; [apply Nat.eqb_eq; lia|].
      apply rok_bind. apply rok_assert; [apply Nat.eqb_eq; lia|].
      apply (run_prepare sq _ (fine w)); [|exact Hft].
      unfold surf_is, table; cbn [s3_vertices s3_edges s3_triangles s3_x s3_e s3_t s3_s s3_n s3_g fine vV vE vT vx ve vt vs].
      refine (conj eq_refl (conj eq_refl (conj eq_refl (conj Hx' (conj _ (conj _ (conj _ (conj _ _)))))))).
      + eapply aprt_aval; [|exact H1]. cbv beta. intros; lia.
      + eapply aprt_aval; [|exact H3]. cbv beta. intros; lia.
      + eapply aprt_aval; [|exact H2]. cbv beta. intros; lia.
      + apply repeat_length.
      + apply repeat_length.
  Qed.
End Run.
