(** * Construction of triangular meshes: orientation of the boundary *)
From Coq Require Import Arith Lia List Bool Ring.
From Verif Require Import Fld Ord Prog Arr HmSpec Tri2d Tri2dSpec Tri2dP Tri2dP2 Tri2dP3 Tri2db Tri2dbSpec.
Import ListNotations.

Lemma nsum_one n (f : nat -> nat) i : i < n -> f i <= nsum n f.
Proof.
  induction n as [|n IH]; intros H; [lia|]. cbn [nsum].
  destruct (Nat.eq_dec i n) as [->|N]; [lia|]. specialize (IH ltac:(lia)). lia.
Qed.
Lemma nsum_two n (f : nat -> nat) i j : i < n -> j < n -> i <> j -> f i + f j <= nsum n f.
Proof.
  induction n as [|n IH]; intros H H' N; [lia|]. cbn [nsum].
  destruct (Nat.eq_dec i n) as [->|Ni].
  - pose proof (nsum_one n f j ltac:(lia)). lia.
  - destruct (Nat.eq_dec j n) as [->|Nj].
    + pose proof (nsum_one n f i ltac:(lia)). lia.
    + specialize (IH ltac:(lia) ltac:(lia) N). lia.
Qed.

Lemma adjacent_unique {K} (w : mview K) e j k j' k' : adjacent w e = 1 ->
  j < mT w -> k < 3 -> mt w j k = e -> j' < mT w -> k' < 3 -> mt w j' k' = e -> j = j' /\ k = k'.
Proof.
  intros HA Hj Hk E Hj' Hk' E'. unfold adjacent in HA.
  set (f := fun j => nsum 3 (fun k => if mt w j k =? e then 1 else 0)) in HA.
  assert (F1 : forall j k, k < 3 -> mt w j k = e -> 1 <= f j).
  { intros a b Hb Eb. unfold f. pose proof (nsum_one 3 (fun k => if mt w a k =? e then 1 else 0) b Hb) as L.
    cbv beta in L. rewrite Eb, Nat.eqb_refl in L. exact L. }
  destruct (Nat.eq_dec j j') as [<-|N].
  - split; [reflexivity|]. destruct (Nat.eq_dec k k') as [|Nk]; [assumption|exfalso].
    pose proof (nsum_two 3 (fun k => if mt w j k =? e then 1 else 0) k k' Hk Hk' Nk) as L.
    cbv beta in L. rewrite E, E', Nat.eqb_refl in L.
    pose proof (nsum_one (mT w) f j Hj) as L'. unfold f in L' at 1. lia.
  - exfalso. pose proof (nsum_two (mT w) f j j' Hj Hj' N) as L.
    pose proof (F1 j k Hk E). pose proof (F1 j' k' Hk' E'). lia.
Qed.

Section Fix.
  Context {G : ofops} (L : ofield_laws G).
  Add Ring tri2db_ring : (rl_ring G (fl_ring G (ol_field G L))).

  Lemma flt_opp (d : G) : flt f0 (fopp d) = false -> fle f0 d.
  Proof.
    intros H. unfold fle. destruct (flt d f0) eqn:E; [|reflexivity].
    apply (ol_add G L) with (z := fopp d) in E.
    replace (d + - d)%F with (@f0 G) in E by ring. replace (0 + - d)%F with (- d)%F in E by ring. congruence.
  Qed.
  Lemma flt_le (d : G) : flt f0 d = true -> fle f0 d.
  Proof.
    intros H. unfold fle. destruct (flt d f0) eqn:E; [|reflexivity].
    pose proof (ol_trans G L _ _ _ H E) as T. rewrite (ol_irrefl G L) in T. discriminate.
  Qed.
  Lemma det_swap (a b c : G * G) : det b a c = fopp (det a b c).
  Proof. unfold det. ring. Qed.

  Variables (m : tri2d G) (w : mview G).
  Hypothesis Hm : mesh_is m w.
  Hypothesis Hok : mesh_ok w.

  Definition sw (p : nat * nat) : nat * nat := (snd p, fst p).

  Definition same_edges (ev : nat -> nat * nat) : Prop :=
    forall i, i < mE w -> ev i = me w i \/ meb w i <> 0 /\ ev i = sw (me w i).

  Lemma joins_sw p a b : joins p a b -> joins (sw p) a b.
  Proof. intros [-> | ->]; [right|left]; reflexivity. Qed.

  Lemma same_joins ev i a b : same_edges ev -> i < mE w -> joins (me w i) a b -> joins (ev i) a b.
  Proof.
    intros HS Hi HJ. destruct (HS i Hi) as [-> |[_ ->]]; [exact HJ|apply joins_sw; exact HJ].
  Qed.

  Definition orient (ev : nat -> nat * nat) (i c : nat) : Prop :=
    fle f0 (det (mx w (fst (ev i))) (mx w (snd (ev i))) (mx w c)).

  Lemma step j k a b c e ev : j < mT w -> k < 3 ->
    aval e (mE w) ev -> same_edges ev -> mt w j k < mE w -> mt w j ((k + 1) mod 3) < mE w ->
    joins (me w (mt w j k)) a b -> joins (me w (mt w j ((k + 1) mod 3))) b c ->
    a < mV w -> b < mV w -> c < mV w -> a <> b -> b <> c -> c <> a ->
    rok (fixnormal m j k e) (fun e' => exists ev', aval e' (mE w) ev' /\ same_edges ev' /\
      (forall i, i < mE w -> i <> mt w j k -> ev' i = ev i) /\
      (meb w (mt w j k) <> 0 -> orient ev' (mt w j k) c)).
  Proof.
    intros Hj Hk Ae HS Hi Hi' J J' La Lb Lc Nab Nbc Nca.
    pose proof Hm as (EV & EE & ET & Ax & _ & At & Axb & Aeb).
    unfold fixnormal. rewrite (aval_get _ _ _ _ At Hj). cbn [rbind].
    assert (TE : forall l, l < 3 -> tedge (mt w j 0, mt w j 1, mt w j 2) l = mt w j l).
    { intros [|[|[|l]]] Hl; try lia; reflexivity. }
    assert (Hk' : (k + 1) mod 3 < 3) by (apply Nat.mod_upper_bound; lia).
    rewrite !TE by assumption. set (ei := mt w j k) in *. set (ej := mt w j ((k + 1) mod 3)) in *.
    rewrite (aval_get _ _ _ _ Aeb Hi). cbn [rbind].
    destruct (Nat.eqb_spec (meb w ei) 0) as [Eb|Nb].
    { cbn. exists ev. split; [exact Ae|]. split; [exact HS|]. split; [auto|]. intros; congruence. }
    rewrite (aval_get _ _ _ _ Ae Hi). cbn [rbind].
    pose proof (same_joins ev ei a b HS Hi J) as Jp. pose proof (same_joins ev ej b c HS Hi' J') as Jq.
    rewrite (aval_get _ _ _ _ Ae Hi').
    assert (Xi : exists xi : G * G, xi = ((fst (mx w c) - fst (mx w b))%F, (snd (mx w c) - snd (mx w b))%F)) by eauto.
    destruct Xi as [xi Exi].
    assert (Lp : fst (ev ei) < mV w /\ snd (ev ei) < mV w) by (destruct Jp as [-> | ->]; cbn; lia).
    assert (Lq : fst (ev ej) < mV w /\ snd (ev ej) < mV w) by (destruct Jq as [-> | ->]; cbn; lia).
    destruct Lp as [Lp0 Lp1], Lq as [Lq0 Lq1].
    rewrite (aval_get _ _ _ _ Ax Lp0), (aval_get _ _ _ _ Ax Lp1). cbn [rbind].
    rewrite (aval_get _ _ _ _ Ax Lq0), (aval_get _ _ _ _ Ax Lq1). cbn [rbind].
    match goal with |- rok (rbind ?r _) _ => assert (Er : r = Ok xi) end.
    { subst xi. destruct Jp as [Ep|Ep], Jq as [Eq|Eq]; rewrite Ep, Eq; cbn [fst snd];
      repeat match goal with |- context [?x =? ?y] => destruct (Nat.eqb_spec x y); try congruence end; reflexivity. }
    rewrite Er. cbn [rbind].
    set (val := (fst xi * _ + snd xi * _)%F).
    assert (Ev : val = fopp (det (mx w (fst (ev ei))) (mx w (snd (ev ei))) (mx w c))).
    { unfold val, det. subst xi. destruct Jp as [-> | ->]; cbn [fst snd]; ring. }
    destruct (flt f0 val) eqn:Ef.
    - eapply rok_aset; [exact Ae|exact Hi|]. intros e' Ae'. eexists. split; [exact Ae'|].
      assert (Es : afupd ev ei (snd (ev ei), fst (ev ei)) ei = sw (ev ei)).
      { unfold afupd. rewrite Nat.eqb_refl. reflexivity. }
      split; [|split].
      + intros i Hil. destruct (Nat.eq_dec i ei) as [->|N].
        * rewrite Es. destruct (HS ei Hi) as [-> |[_ ->]]; [right; auto|].
          left. destruct (me w ei). reflexivity.
        * unfold afupd. destruct (Nat.eqb_spec i ei); [congruence|]. apply HS. exact Hil.
      + intros i Hil N. unfold afupd. destruct (Nat.eqb_spec i ei); [congruence|reflexivity].
      + intros _. unfold orient. rewrite Es. cbn [sw fst snd]. rewrite det_swap, <- Ev. apply flt_le. exact Ef.
    - cbn. exists ev. split; [exact Ae|]. split; [exact HS|]. split; [auto|].
      intros _. unfold orient. apply flt_opp. rewrite <- Ev. exact Ef.
  Qed.

  Definition opp (j k : nat) : nat :=
    opposite (cv w (mt w j 1) (mt w j 2)) (cv w (mt w j 2) (mt w j 0)) (cv w (mt w j 0) (mt w j 1)) k.

  Definition done (n l j k : nat) : Prop := j < n \/ j = n /\ k < l.

  Definition oinv (n l : nat) (e : arr (nat * nat)) : Prop :=
    exists ev, aval e (mE w) ev /\ same_edges ev /\
      forall j k, j < mT w -> k < 3 -> done n l j k -> meb w (mt w j k) = 1 -> orient ev (mt w j k) (opp j k).

  Lemma step_inv j k e : j < mT w -> k < 3 -> oinv j k e -> rok (fixnormal m j k e) (oinv j (S k)).
  Proof.
    intros Hj Hk (ev & Ae & HS & HO).
    pose proof Hok as (_ & HT & _ & H1 & _). destruct (HT j Hj) as (v0 & v1 & v2 & HC).
    destruct (corners_cv _ _ _ _ _ HC) as (C0 & C1 & C2).
    destruct (corners_lt w Hok _ _ _ _ HC) as (L0 & L1 & L2).
    pose proof HC as (N1 & N2 & N3 & HE & J0 & J1 & J2).
    assert (HX : exists a b, joins (me w (mt w j k)) a b /\ joins (me w (mt w j ((k + 1) mod 3))) b (opp j k) /\
      a < mV w /\ b < mV w /\ opp j k < mV w /\ a <> b /\ b <> opp j k /\ opp j k <> a).
    { unfold opp. rewrite C0, C1, C2. destruct k as [|[|[|k]]]; [..|lia]; cbn [opposite];
        [change ((0 + 1) mod 3) with 1|change ((1 + 1) mod 3) with 2|change ((2 + 1) mod 3) with 0];
        [exists v1, v2|exists v2, v0|exists v0, v1]; repeat split; try assumption; congruence. }
    destruct HX as (a & b & Ja & Jb & La & Lb & Lc & Nab & Nbc & Nca).
    eapply rok_conseq.
    { apply (step j k a b (opp j k) e ev); try assumption; apply HE; [lia|apply Nat.mod_upper_bound; lia]. }
    intros e' (ev' & Ae' & HS' & Hot & Hor). exists ev'. split; [exact Ae'|]. split; [exact HS'|].
    intros j' k' Hj' Hk' HD Hb.
    destruct (Nat.eq_dec (mt w j' k') (mt w j k)) as [E|N].
    - rewrite E in *. assert (HA : adjacent w (mt w j k) = 1) by (apply H1; [apply HE; exact Hk|exact Hb]).
      destruct (adjacent_unique w (mt w j k) j k j' k' HA Hj Hk eq_refl Hj' Hk' E) as [-> ->].
      apply Hor. lia.
    - destruct (HT j' Hj') as (u0 & u1 & u2 & (_ & _ & _ & HE' & _)).
      unfold orient. rewrite Hot by (try apply HE'; assumption). apply HO; try assumption.
      destruct HD as [HD|[-> HD]]; [left; exact HD|right; split; [reflexivity|]].
      destruct (Nat.eq_dec k' k) as [->|]; [congruence|lia].
  Qed.

  Lemma run_fix : rok (fixnormals_tri2d m) (fun r => exists w', mesh_is r w' /\ mesh_ok w' /\ reversed w w' /\
    ccw_boundary w' /\ forall j v0 v1 v2, j < mT w -> corners w j v0 v1 v2 -> corners w' j v0 v1 v2).
  Proof.
    pose proof Hm as (EV & EE & ET & Ax & Ae & At & Axb & Aeb).
    unfold fixnormals_tri2d. apply rok_bind.
    eapply rok_for with (Inv := fun j => oinv j 0).
    - exists (me w). split; [exact Ae|]. split; [intros i _; left; reflexivity|].
      intros j k _ _ [H|[_ H]]; lia.
    - intros j e Hj He. eapply rok_for with (Inv := fun k => oinv j k); [exact He| |].
      + intros k e' Hk He'. apply step_inv; [lia|lia|exact He'].
      + intros e' (ev & A & B & C). exists ev. split; [exact A|]. split; [exact B|].
        intros j' k' Hj' Hk' HD. apply C; try assumption. unfold done in *. lia.
    - intros e (ev & Aev & HS & HO). cbn [rok].
      set (w' := MV (mV w) (mE w) (mT w) (mx w) ev (mt w) (mxb w) (meb w)).
      assert (HCo : forall j v0 v1 v2, corners w j v0 v1 v2 -> corners w' j v0 v1 v2).
      { intros j v0 v1 v2 (N1 & N2 & N3 & HE & J0 & J1 & J2).
        repeat (split; [assumption|]). unfold w'; cbn [me mt mE].
        split; [|split]; (apply same_joins; [exact HS|apply HE; lia|assumption]). }
      pose proof Hok as (He & HT & H0 & H1 & Hb).
      exists w'. split; [|split; [|split; [|split]]].
      + unfold mesh_is, w'. cbn [t2_x t2_xb t2_e t2_eb t2_t t2_vertices t2_edges t2_triangles mV mE mT mx me mt mxb meb].
        auto 10.
      + assert (Hfs : forall i, i < mE w -> (fst (ev i) = fst (me w i) /\ snd (ev i) = snd (me w i)) \/
            (fst (ev i) = snd (me w i) /\ snd (ev i) = fst (me w i))).
        { intros i Hi. destruct (HS i Hi) as [-> |[_ ->]]; [left|right]; auto. }
        unfold w'. split; [|split; [|split; [exact H0|split; [exact H1|]]]]; cbn [mV mE mT mx me mt mxb meb].
        * intros i Hi. destruct (He i Hi) as (A & B & C). destruct (Hfs i Hi) as [[-> ->]|[-> ->]]; auto.
        * intros j Hj. destruct (HT j Hj) as (v0 & v1 & v2 & HC). exists v0, v1, v2. apply HCo. exact HC.
        * intros i Hi Hbi. destruct (Hb i Hi Hbi) as (A & B). destruct (Hfs i Hi) as [[-> ->]|[-> ->]]; auto.
      + unfold reversed, w'; cbn [mV mE mT mx me mt mxb meb]. repeat (split; [auto|]). exact HS.
      + intros j v0 v1 v2 k Hj HC Hk Hbk. cbv zeta.
        assert (E0 : opposite v0 v1 v2 k = opp j k).
        { destruct (HT j Hj) as (u0 & u1 & u2 & HCu).
          destruct (corners_cv _ _ _ _ _ HCu) as (U0 & U1 & U2).
          pose proof (HCo _ _ _ _ HCu) as HCu'.
          destruct (corners_cv _ _ _ _ _ HCu') as (W0 & W1 & W2).
          destruct (corners_cv _ _ _ _ _ HC) as (X0 & X1 & X2).
          unfold opp. rewrite U0, U1, U2. congruence. }
        rewrite E0. apply HO; try assumption. left. cbn in Hj. lia.
      + intros j v0 v1 v2 _. apply HCo.
  Qed.
End Fix.
