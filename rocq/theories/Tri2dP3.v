(** * Triangular meshes in the plane: running the refinement *)
From Coq Require Import Arith Lia List Bool Ring.
From Verif Require Import Fld Prog Arr HmSpec Tri2d Tri2dSpec Tri2dP Tri2dP2.
Import ListNotations.

Section Run.
  Context {K : fops} (m : tri2d K) (w : mview K).
  Hypothesis Hm : mesh_is m w.
  Hypothesis Hok : mesh_ok w.

  Lemma common_vertex_run i1 i2 v a b : i1 < mE w -> i2 < mE w ->
    joins (me w i1) v a -> joins (me w i2) v b -> v <> a -> v <> b -> a <> b ->
    common_vertex_global (t2_e m) i1 i2 = Ok v.
  Proof.
    intros H1 H2 J1 J2 Na Nb Nab.
    destruct Hm as (_ & _ & _ & _ & Ae & _).
    unfold common_vertex_global. rewrite (aval_get _ _ _ _ Ae H1), (aval_get _ _ _ _ Ae H2). cbn [rbind].
    destruct J1 as [-> | ->], J2 as [-> | ->]; cbn [fst snd].
    all: repeat match goal with |- context [?x =? ?y] => destruct (Nat.eqb_spec x y) end; cbn; try lia; try reflexivity.
    all: f_equal; lia.
  Qed.

  Lemma getvertices_run j v0 v1 v2 : j < mT w -> corners w j v0 v1 v2 ->
    getvertices_tri2d m j = Ok (v0, v1, v2).
  Proof.
    intros Hj (N1 & N2 & N3 & HE & J0 & J1 & J2).
    pose proof Hm as (_ & _ & _ & _ & _ & At & _).
    unfold getvertices_tri2d. rewrite (aval_get _ _ _ _ At Hj). cbn [rbind tedge fst snd].
    rewrite (common_vertex_run _ _ v2 v1 v0) by solve [assumption|apply joins_sym; assumption|apply HE; lia|lia].
    cbn [rbind].
    rewrite (common_vertex_run _ _ v0 v2 v1) by solve [assumption|apply joins_sym; assumption|apply HE; lia|lia].
    cbn [rbind].
    rewrite (common_vertex_run _ _ v1 v0 v2) by solve [assumption|apply joins_sym; assumption|apply HE; lia|lia].
    reflexivity.
  Qed.

  Lemma intersecting_run (re : arr (nat * nat)) i1 i2 v a b :
    aval re (2 * mE w + 3 * mT w) (fe w) -> i1 < mE w -> i2 < mE w ->
    joins (me w i1) v a -> joins (me w i2) v b -> v <> a -> v <> b -> a <> b ->
    intersecting_edges re (2 * i1) (2 * i2) = Ok (hf w i1 v, hf w i2 v).
  Proof.
    intros Are H1 H2 J1 J2 Na Nb Nab.
    destruct Hok as (He & _). destruct (He i1 H1) as (X1 & X2 & _). destruct (He i2 H2) as (Y1 & Y2 & _).
    assert (D : i1 <> i2).
    { intros ->. destruct J1 as [E1|E1], J2 as [E2|E2]; congruence. }
    pose proof (fe_half w i1 0 H1 ltac:(lia)) as P0. pose proof (fe_half w i1 1 H1 ltac:(lia)) as P1.
    pose proof (fe_half w i2 0 H2 ltac:(lia)) as Q0. pose proof (fe_half w i2 1 H2 ltac:(lia)) as Q1.
    rewrite Nat.add_0_r in P0, Q0.
    unfold intersecting_edges.
    rewrite !(aval_get _ _ _ _ Are) by lia. cbn [rbind]. rewrite P0, P1, Q0, Q1.
    unfold hf, share. cbn [fst snd].
    destruct J1 as [E1|E1], J2 as [E2|E2]; rewrite E1, E2 in *; cbn [fst snd] in *.
    all: repeat (match goal with |- context [?x =? ?y] => destruct (Nat.eqb_spec x y); [try lia|try lia] end;
      cbn [orb rbind rassert]); try (exfalso; lia); try (f_equal; f_equal; lia).
  Qed.

  (** Sources of the vertices, edges and triangles *)
  Definition gxf (i : nat) : nat := if i <? mV w then i else i - mV w.
  Definition gxt (i : nat) : nat := if i <? mV w then 0 else 1.
  Definition gef (i : nat) : nat := if i <? 2 * mE w then i / 2 else (i - 2 * mE w) / 3.
  Definition get_ (i : nat) : nat := if i <? 2 * mE w then 1 else 2.
  Definition gtf (i : nat) : nat := i / 4.

  Lemma gef_half i h : i < mE w -> h < 2 -> gef (2 * i + h) = i.
  Proof.
    intros Hi Hh. unfold gef. destruct (Nat.ltb_spec (2 * i + h) (2 * mE w)); [|lia].
    apply divmod. exact Hh.
  Qed.
  Lemma get_half i h : i < mE w -> h < 2 -> get_ (2 * i + h) = 1.
  Proof. intros Hi Hh. unfold get_. destruct (Nat.ltb_spec (2 * i + h) (2 * mE w)); [reflexivity|lia]. Qed.
  Lemma gef_inner j k : k < 3 -> gef (2 * mE w + 3 * j + k) = j.
  Proof.
    intros Hk. unfold gef. destruct (Nat.ltb_spec (2 * mE w + 3 * j + k) (2 * mE w)); [lia|].
    replace (2 * mE w + 3 * j + k - 2 * mE w) with (3 * j + k) by lia. apply divmod. exact Hk.
  Qed.
  Lemma get_inner j k : get_ (2 * mE w + 3 * j + k) = 2.
  Proof. unfold get_. destruct (Nat.ltb_spec (2 * mE w + 3 * j + k) (2 * mE w)); [lia|reflexivity]. Qed.
  Lemma gtf_sub j q : q < 4 -> gtf (4 * j + q) = j.
  Proof. intros H. apply divmod. exact H. Qed.
  Lemma gxf_new i : gxf (mV w + i) = i.
  Proof. unfold gxf. destruct (Nat.ltb_spec (mV w + i) (mV w)); lia. Qed.
  Lemma gxt_new i : gxt (mV w + i) = 1.
  Proof. unfold gxt. destruct (Nat.ltb_spec (mV w + i) (mV w)); lia. Qed.

  Variable t2r : bool.
  Notation NV := (mV w + mE w).
  Notation NE := (2 * mE w + 3 * mT w).
  Notation NT := (4 * mT w).

  Lemma run_vertices s : vinv t2r NV (fx w) (fxb w) gxf gxt 0 s ->
    rok (refine_vertices t2r m s) (vinv t2r NV (fx w) (fxb w) gxf gxt (mV w)).
  Proof.
    intros Hs. destruct Hm as (EV & EE & ET & Ax & Ae & At & Axb & Aeb).
    unfold refine_vertices. rewrite EV.
    eapply rok_for with (Inv := fun j => vinv t2r NV (fx w) (fxb w) gxf gxt j); [exact Hs| |auto].
    intros j s' Hj Hs'. rewrite (aval_get _ _ _ _ Ax), (aval_get _ _ _ _ Axb) by lia. cbn [rbind].
    apply rok_put_vertex with (i := j); [exact Hs'|lia|..].
    - symmetry. apply fx_old. lia.
    - symmetry. apply fxb_old. lia.
    - unfold gxf. destruct (Nat.ltb_spec j (mV w)); lia.
    - unfold gxt. destruct (Nat.ltb_spec j (mV w)); lia.
  Qed.

  Lemma run_midpoints s : vinv t2r NV (fx w) (fxb w) gxf gxt (mV w) s ->
    rok (refine_midpoints t2r m s) (vinv t2r NV (fx w) (fxb w) gxf gxt NV).
  Proof.
    intros Hs. destruct Hm as (EV & EE & ET & Ax & Ae & At & Axb & Aeb). destruct Hok as (He & _).
    unfold refine_midpoints. rewrite EE.
    eapply rok_for with (Inv := fun j => vinv t2r NV (fx w) (fxb w) gxf gxt (mV w + j));
      [rewrite Nat.add_0_r; exact Hs| |auto].
    intros j s' Hj Hs'. destruct (He j ltac:(lia)) as (A & B & _).
    rewrite (aval_get _ _ _ _ Ae), (aval_get _ _ _ _ Aeb) by lia. cbn [rbind].
    rewrite !(aval_get _ _ _ _ Ax) by assumption. cbn [rbind].
    rewrite Nat.add_succ_r.
    apply rok_put_vertex with (i := mV w + j); [exact Hs'|lia|..]; symmetry.
    - apply fx_new.
    - apply fxb_new.
    - apply gxf_new.
    - apply gxt_new.
  Qed.

  Lemma run_halves s : einv t2r NE (fe w) (feb w) gef get_ 0 s ->
    rok (refine_halves t2r m (mV w) s) (einv t2r NE (fe w) (feb w) gef get_ (2 * mE w)).
  Proof.
    intros Hs. destruct Hm as (EV & EE & ET & Ax & Ae & At & Axb & Aeb).
    unfold refine_halves. rewrite EE.
    eapply rok_for with (Inv := fun j => einv t2r NE (fe w) (feb w) gef get_ (2 * j)); [exact Hs| |auto].
    intros j s' Hj Hs'.
    rewrite (aval_get _ _ _ _ Ae), (aval_get _ _ _ _ Aeb) by lia. cbn [rbind].
    pose proof (fe_half w j 0 ltac:(lia) ltac:(lia)) as P0. pose proof (fe_half w j 1 ltac:(lia) ltac:(lia)) as P1.
    pose proof (feb_half w j 0 ltac:(lia) ltac:(lia)) as B0. pose proof (feb_half w j 1 ltac:(lia) ltac:(lia)) as B1.
    pose proof (gef_half j 0 ltac:(lia) ltac:(lia)) as G0. pose proof (gef_half j 1 ltac:(lia) ltac:(lia)) as G1.
    pose proof (get_half j 0 ltac:(lia) ltac:(lia)) as T0. pose proof (get_half j 1 ltac:(lia) ltac:(lia)) as T1.
    rewrite Nat.add_0_r in P0, B0, G0, T0.
    replace (2 * S j) with (S (2 * j + 1)) by lia.
    apply rok_bind. eapply rok_conseq.
    { apply rok_put_edge with (i := 2 * j); [exact Hs'|lia|..]; symmetry; eassumption. }
    intros s1 Hs1. replace (S (2 * j)) with (2 * j + 1) in Hs1 by lia.
    apply rok_put_edge with (i := 2 * j + 1); [exact Hs1|lia|..]; symmetry; assumption.
  Qed.

  Lemma run_inner s : einv t2r NE (fe w) (feb w) gef get_ (2 * mE w) s ->
    rok (refine_inner t2r m (mV w) s) (einv t2r NE (fe w) (feb w) gef get_ NE).
  Proof.
    intros Hs. destruct Hm as (EV & EE & ET & Ax & Ae & At & Axb & Aeb).
    unfold refine_inner. rewrite ET.
    eapply rok_for with (Inv := fun j => einv t2r NE (fe w) (feb w) gef get_ (2 * mE w + 3 * j));
      [rewrite Nat.add_0_r; exact Hs| |auto].
    intros j s' Hj Hs'.
    rewrite (aval_get _ _ _ _ At) by lia. cbn [rbind tedge fst snd].
    pose proof (fe_inner w j 0 ltac:(lia) ltac:(lia)) as P0. pose proof (fe_inner w j 1 ltac:(lia) ltac:(lia)) as P1.
    pose proof (fe_inner w j 2 ltac:(lia) ltac:(lia)) as P2.
    pose proof (feb_inner w j 0) as B0. pose proof (feb_inner w j 1) as B1. pose proof (feb_inner w j 2) as B2.
    pose proof (gef_inner j 0 ltac:(lia)) as G0. pose proof (gef_inner j 1 ltac:(lia)) as G1.
    pose proof (gef_inner j 2 ltac:(lia)) as G2.
    pose proof (get_inner j 0) as T0. pose proof (get_inner j 1) as T1. pose proof (get_inner j 2) as T2.
    rewrite Nat.add_0_r in P0, B0, G0, T0. set (b := 2 * mE w + 3 * j) in *.
    replace (2 * mE w + 3 * S j) with (S (b + 2)) by (unfold b; lia).
    assert (b + 2 < NE) by (unfold b; lia).
    apply rok_bind. eapply rok_conseq.
    { apply rok_put_edge with (i := b); [exact Hs'|lia|..]; symmetry; eassumption. }
    intros s1 Hs1. replace (S b) with (b + 1) in Hs1 by lia.
    apply rok_bind. eapply rok_conseq.
    { apply rok_put_edge with (i := b + 1); [exact Hs1|lia|..]; symmetry; eassumption. }
    intros s2 Hs2. replace (S (b + 1)) with (b + 2) in Hs2 by lia.
    apply rok_put_edge with (i := b + 2); [exact Hs2|lia|..]; symmetry; assumption.
  Qed.

  Definition ft3 (i : nat) : nat * nat * nat := (ft w i 0, ft w i 1, ft w i 2).

  Lemma run_triangles re s : aval re NE (fe w) -> tinv t2r NT ft3 gtf 0 s ->
    rok (refine_triangles t2r m re (2 * mE w) s) (tinv t2r NT ft3 gtf NT).
  Proof.
    intros Are Hs. pose proof Hm as (EV & EE & ET & Ax & Ae & At & Axb & Aeb).
    unfold refine_triangles. rewrite ET.
    eapply rok_for with (Inv := fun j => tinv t2r NT ft3 gtf (4 * j)); [exact Hs| |auto].
    intros j s' Hj Hs'. pose proof Hok as (_ & HT & _).
    destruct (HT j ltac:(lia)) as (v0 & v1 & v2 & HC).
    destruct (corners_cv _ _ _ _ _ HC) as (C0 & C1 & C2).
    pose proof HC as (N1 & N2 & N3 & HE & J0 & J1 & J2).
    rewrite (aval_get _ _ _ _ At) by lia. cbn [rbind].
    change (tedge (mt w j 0, mt w j 1, mt w j 2) 0) with (mt w j 0).
    change (tedge (mt w j 0, mt w j 1, mt w j 2) 1) with (mt w j 1).
    change (tedge (mt w j 0, mt w j 1, mt w j 2) 2) with (mt w j 2).
    assert (F0 : ft3 (4 * j) = (2 * mE w + 3 * j, hf w (mt w j 1) v0, hf w (mt w j 2) v0)).
    { replace (4 * j) with (4 * j + 0) by lia. unfold ft3. rewrite !ft_sub by lia. cbv zeta.
      rewrite C0. reflexivity. }
    assert (F1 : ft3 (4 * j + 1) = (hf w (mt w j 0) v1, 2 * mE w + 3 * j + 1, hf w (mt w j 2) v1)).
    { unfold ft3. rewrite !ft_sub by lia. cbv zeta. rewrite C1. reflexivity. }
    assert (F2 : ft3 (4 * j + 2) = (hf w (mt w j 0) v2, hf w (mt w j 1) v2, 2 * mE w + 3 * j + 2)).
    { unfold ft3. rewrite !ft_sub by lia. cbv zeta. rewrite C2. reflexivity. }
    assert (F3 : ft3 (4 * j + 3) = (2 * mE w + 3 * j, 2 * mE w + 3 * j + 1, 2 * mE w + 3 * j + 2)).
    { unfold ft3. rewrite !ft_sub by lia. cbv zeta. rewrite Nat.add_0_r. reflexivity. }
    pose proof (gtf_sub j 0 ltac:(lia)) as G0. pose proof (gtf_sub j 1 ltac:(lia)) as G1.
    pose proof (gtf_sub j 2 ltac:(lia)) as G2. pose proof (gtf_sub j 3 ltac:(lia)) as G3.
    rewrite Nat.add_0_r in G0.
    replace (4 * S j) with (S (4 * j + 3)) by lia.
    rewrite (intersecting_run re _ _ v0 v2 v1 Are)
      by solve [assumption|apply joins_sym; assumption|apply HE; lia|lia].
    cbn [rbind].
    apply rok_bind. eapply rok_conseq.
    { apply rok_put_triangle with (i := 4 * j); [exact Hs'|lia|..]; symmetry; eassumption. }
    intros s1 Hs1. replace (S (4 * j)) with (4 * j + 1) in Hs1 by lia.
    rewrite (intersecting_run re _ _ v1 v2 v0 Are)
      by solve [assumption|apply joins_sym; assumption|apply HE; lia|lia].
    cbn [rbind].
    apply rok_bind. eapply rok_conseq.
    { apply rok_put_triangle with (i := 4 * j + 1); [exact Hs1|lia|..]; symmetry; eassumption. }
    intros s2 Hs2. replace (S (4 * j + 1)) with (4 * j + 2) in Hs2 by lia.
    rewrite (intersecting_run re _ _ v2 v1 v0 Are)
      by solve [assumption|apply joins_sym; assumption|apply HE; lia|lia].
    cbn [rbind].
    apply rok_bind. eapply rok_conseq.
    { apply rok_put_triangle with (i := 4 * j + 2); [exact Hs2|lia|..]; symmetry; eassumption. }
    intros s3 Hs3. replace (S (4 * j + 2)) with (4 * j + 3) in Hs3 by lia.
    apply rok_put_triangle with (i := 4 * j + 3); [exact Hs3|lia|..]; symmetry; assumption.
  Qed.

  Lemma full {A} (a : arr A) n f : aprt a n (fun k => k < n) f -> aval a n f.
  Proof. apply aprt_aval. auto. Qed.

  Lemma run_refine : exists r o, refine_tri2d t2r m = Ok (r, o) /\ mesh_is r (fine w) /\
    (if t2r then exists d, o = Some d /\ describes d w else o = None).
  Proof.
    pose proof Hm as (EV & EE & ET & _).
    assert (G : rok (refine_tri2d t2r m) (fun p => mesh_is (fst p) (fine w) /\
      (if t2r then exists d, snd p = Some d /\ describes d w else snd p = None))).
    2:{ apply rok_inv in G. destruct G as ([r o] & E & A & B). exists r, o. auto. }
    unfold refine_tri2d. cbv zeta. cbn [t2_x t2_xb t2_e t2_eb t2_t t2_vertices t2_edges t2_triangles new_tri2d].
    rewrite EV, EE, ET.
    apply rok_bind. eapply rok_conseq.
    { apply run_vertices. unfold vinv. split; [reflexivity|].
      split; [apply anew_prt; lia|]. split; [apply anew_prt; lia|].
      split; intros ->; apply anew_prt; lia. }
    intros s Hs. apply rok_bind. eapply rok_conseq; [apply run_midpoints; exact Hs|].
    intros [[[[x xb] xf] xt] i] (-> & Ax & Axb & Axf & Axt).
    apply rok_bind. apply rok_assert; [apply Nat.eqb_refl|].
    destruct s as [[[[sx sxb] sxf] sxt] si]. destruct Hs as (-> & _). cbn [snd].
    apply rok_bind. eapply rok_conseq.
    { apply run_halves. unfold einv. split; [reflexivity|].
      split; [apply anew_prt; lia|]. split; [apply anew_prt; lia|].
      split; intros ->; apply anew_prt; lia. }
    intros s Hs. apply rok_bind. eapply rok_conseq; [apply run_inner; exact Hs|].
    intros [[[[e eb] ef] et] i] (-> & Ae & Aeb & Aef & Aet).
    destruct s as [[[[se seb] sef] set] si]. destruct Hs as (-> & _). cbn [snd].
    apply rok_bind. eapply rok_conseq.
    { apply run_triangles; [apply full; exact Ae|]. unfold tinv. split; [reflexivity|].
      split; [apply anew_prt; lia|]. intros ->; apply anew_prt; lia. }
    intros [[t tf] i] (-> & At & Atf). cbn [rok fst snd].
    split.
    - unfold mesh_is. cbn [t2_x t2_xb t2_e t2_eb t2_t t2_vertices t2_edges t2_triangles mV mE mT mx me mt mxb meb fine].
      repeat (split; [reflexivity|]).
      split; [apply full; exact Ax|]. split; [apply full; exact Ae|]. split; [apply full; exact At|].
      split; [apply full; exact Axb|apply full; exact Aeb].
    - destruct t2r; [|reflexivity]. exists (R2 xf xt ef et tf). split; [reflexivity|].
      exists gxf, gxt, gef, get_, gtf. cbn [r2_xf r2_xt r2_ef r2_et r2_tf].
      split; [apply full, Axf; reflexivity|]. split; [apply full, Axt; reflexivity|].
      split; [apply full, Aef; reflexivity|]. split; [apply full, Aet; reflexivity|].
      split; [apply full, Atf; reflexivity|].
      split; [|split; [|split; [|split]]].
      + intros i Hi. unfold gxt, gxf. destruct (Nat.ltb_spec i (mV w)); lia.
      + intros i Hi. split; [apply gxt_new|apply gxf_new].
      + intros i h Hi Hh. split; [apply get_half|apply gef_half]; assumption.
      + intros j k Hj Hk. split; [apply get_inner|apply gef_inner; assumption].
      + intros j q Hj Hq. apply gtf_sub. exact Hq.
  Qed.
End Run.
