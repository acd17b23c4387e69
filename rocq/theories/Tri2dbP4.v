(** * Construction of triangular meshes: the finished mesh *)
From Coq Require Import Arith Lia List Bool.
From Verif Require Import Fld Ord Prog Arr HmSpec Tri2d Tri2dSpec Tri2dP Tri2dP2 Tri2dP3 Tri2db Tri2dbSpec Tri2dbP Tri2dbP2 Tri2dbP3.
Import ListNotations.

Lemma joins_swap (p q : nat * nat) a b : q = p \/ q = (snd p, fst p) -> (joins q a b <-> joins p a b).
Proof.
  destruct p as [u v]. cbn [fst snd]. unfold joins.
  intros [-> | ->]; [tauto|]. split; (intros [H|H]; injection H as -> ->; auto).
Qed.

Section Finish.
  Context {G : ofops} (L : ofield_laws G).
  Variables (tris : list (nat * nat * nat)) (pe : nat -> nat -> nat) (tb : builder G) (x : list (G * G)).
  Hypothesis HB : binv tris pe tb.
  Hypothesis HV : tb_vertices tb = length x.
  Hypothesis HX : tb_x tb = aof x.
  Hypothesis HT : tris_ok (length x) tris.

  Notation V := (length x).
  Notation E := (length (tb_heap tb)).
  Notation T := (length tris).

  Lemma nb_sharing p a b : p < E -> joins (ev tb p) a b -> nb tb p = sharing tris a b /\ 1 <= sharing tris a b.
  Proof.
    intros Hp J. destruct (nb_uses _ _ _ HB p Hp) as [A B].
    rewrite <- (uses_sharing _ _ _ _ HB HV (proj1 HT) p a b Hp J). split; [exact A|lia].
  Qed.
  Lemma nb_12 p : p < E -> nb tb p = 1 \/ nb tb p = 2.
  Proof.
    intros Hp. destruct (nb_sharing p (fst (ev tb p)) (snd (ev tb p)) Hp) as [A B].
    { left. destruct (ev tb p); reflexivity. }
    destruct (ent_ok _ _ _ _ HB HV p Hp) as (_ & Lt & _).
    assert (C := proj2 HT (fst (ev tb p)) (snd (ev tb p))). cbn [ev ends_of fst snd] in *.
    specialize (C ltac:(lia)). lia.
  Qed.

  Definition vfl (xbf : nat -> nat) : Prop :=
    forall v, v < V -> (xbf v = 1 /\ touched tb (fun _ => True) v) \/ (xbf v = 0 /\ ~ touched tb (fun _ => True) v).

  Lemma ebf_1 p : ebf tb p = 1 <-> nb tb p = 1.
  Proof. unfold ebf. destruct (Nat.eqb_spec (nb tb p) 1); cbn; split; intros; try discriminate; auto; lia. Qed.
  Lemma ebf_0 p : p < E -> ebf tb p = 0 -> nb tb p = 2.
  Proof.
    intros Hp. unfold ebf. destruct (Nat.eqb_spec (nb tb p) 1); cbn; intros; [discriminate|].
    destruct (nb_12 p Hp); [contradiction|assumption].
  Qed.

  Lemma bview_ok xbf : vfl xbf -> mesh_ok (bview tris pe tb x xbf).
  Proof.
    intros Hf. unfold mesh_ok. cbn [bview mE mV mT me mt meb mxb].
    split; [|split; [|split; [|split]]].
    - intros p Hp. destruct (ent_ok _ _ _ _ HB HV p Hp) as (_ & A & B). cbn [ev ends_of fst snd]. lia.
    - intros j Hj. destruct (tri_nth tris tb x HV j Hj) as (v0 & v1 & v2 & Et).
      exists v0, v1, v2. eapply bcorners; [exact HB|exact HV|exact (proj1 HT)|exact Et].
    - intros p Hp H0. apply (ebf_0 p Hp) in H0. destruct (nb_uses _ _ _ HB p Hp) as [A _].
      rewrite <- H0, A. reflexivity.
    - intros p Hp H1. apply ebf_1 in H1. destruct (nb_uses _ _ _ HB p Hp) as [A _].
      rewrite <- H1, A. reflexivity.
    - intros p Hp H1. apply ebf_1 in H1.
      destruct (ent_ok _ _ _ _ HB HV p Hp) as (_ & A & B).
      split.
      + destruct (Hf (fst (ev tb p))) as [[F _]|[_ F]]; [cbn [ev ends_of fst]; lia|lia|].
        exfalso. apply F. exists p. auto.
      + destruct (Hf (snd (ev tb p))) as [[F _]|[_ F]]; [cbn [ev ends_of snd]; lia|lia|].
        exfalso. apply F. exists p. auto.
  Qed.

  Lemma built_of xbf w : vfl xbf -> reversed (bview tris pe tb x xbf) w ->
    (forall j v0 v1 v2, j < T -> corners (bview tris pe tb x xbf) j v0 v1 v2 -> corners w j v0 v1 v2) ->
    built x tris w.
  Proof.
    intros Hf (RV & RE & RT & Rx & Reb & Rt & Re) Hc. cbn [bview mE mV mT me mt meb mxb mx] in *.
    assert (Re' : forall i, i < E -> me w i = ev tb i \/ me w i = (snd (ev tb i), fst (ev tb i))).
    { intros i Hi. destruct (Re i Hi) as [?|[_ ?]]; auto. }
    assert (RJ : forall i a b, i < E -> joins (me w i) a b -> joins (ev tb i) a b).
    { intros i a b Hi. apply (proj1 (joins_swap _ _ a b (Re' i Hi))). }
    assert (RI : forall i v, i < E -> (fst (me w i) = v \/ snd (me w i) = v <-> fst (ev tb i) = v \/ snd (ev tb i) = v)).
    { intros i v Hi. destruct (Re' i Hi) as [->| ->]; cbn [fst snd]; tauto. }
    unfold built. rewrite RV, RT, RE. split; [reflexivity|]. split; [reflexivity|].
    split; [|split; [|split; [|split]]].
    - intros i p Hi. assert (i < V) by (apply nth_error_Some; congruence).
      rewrite (proj1 (Rx i H)). apply nth_error_nth with (d := (f0, f0)) in Hi. exact Hi.
    - intros j v0 v1 v2 Et. apply Hc; [apply nth_error_Some; congruence|]. eapply bcorners; [exact HB|exact HV|exact (proj1 HT)|exact Et].
    - intros i i' a b Hi Hi' J J'. apply RJ in J; [|exact Hi]. apply RJ in J'; [|exact Hi'].
      apply (ev_inj _ _ _ HB i i' Hi Hi').
      rewrite (sort_unique _ _ _ _ HB HV i a b Hi J), (sort_unique _ _ _ _ HB HV i' a b Hi' J'). reflexivity.
    - intros i a b Hi J. apply RJ in J; [|exact Hi]. destruct (nb_sharing i a b Hi J) as [A B].
      split; [exact B|]. rewrite (Reb i Hi). unfold ebf. rewrite A. destruct (sharing tris a b =? 1); reflexivity.
    - intros v Hv. rewrite (proj2 (Rx v Hv)). destruct (Hf v Hv) as [[F (p & P1 & _ & P2 & P3)]|[F P]].
      + left. split; [exact F|]. exists p. split; [exact P1|]. split; [rewrite (Reb p P1); apply ebf_1; exact P2|].
        apply RI; assumption.
      + right. split; [exact F|]. intros i Hi H1. rewrite (Reb i Hi) in H1. apply ebf_1 in H1.
        assert (N : ~ (fst (me w i) = v \/ snd (me w i) = v)); [|tauto].
        rewrite (RI i v Hi). intros Q. apply P. exists i. auto.
  Qed.

  Lemma buildmesh_ok : rok (buildmesh_tri2dbuilder tb)
    (fun r => exists w, mesh_is r w /\ mesh_ok w /\ built x tris w /\ ccw_boundary w).
  Proof.
    unfold buildmesh_tri2dbuilder. cbv zeta. unfold new_tri2d; cbn [t2_xb t2_t t2_e t2_eb t2_x].
    rewrite HV, (bi_n _ _ _ HB), (li_n _ (bi_l _ _ _ HB)).
    apply rok_bind. eapply rok_for with (Inv := fun i (a : arr nat) => aprt a V (fun k => k < i) (fun _ => 0)).
    { apply anew_prt. intros; lia. }
    { intros i a Hi Ha. eapply rok_aset_next; [exact Ha|lia|reflexivity|]. auto. }
    intros xb Hxb. apply full in Hxb.
    apply rok_bind. eapply rok_conseq; [eapply build_triangles_ok; eassumption|]. intros t Ht.
    apply rok_bind. eapply rok_conseq; [eapply build_edges_ok; [exact HB|exact HV|exact nb_12|]|].
    { split; [apply anew_prt; intros; tauto|]. split; [apply anew_prt; intros; tauto|].
      exists (fun _ => 0). split; [exact Hxb|]. intros v Hv. right. split; [reflexivity|].
      intros (p & _ & [] & _). }
    intros [[e eb] xb'] (A & B & xbf & C & F).
    assert (A' : aval e E (ev tb)) by (eapply aprt_aval; [|exact A]; intros; exact I).
    assert (B' : aval eb E (ebf tb)) by (eapply aprt_aval; [|exact B]; intros; exact I).
    assert (AX := aof_val x (f0, f0)).
    apply rok_bind. eapply rok_for with (Inv := fun i (a : arr (G * G)) => aprt a V (fun k => k < i) (fun i => nth i x (f0, f0))).
    { apply anew_prt. intros; lia. }
    { intros i a Hi Ha. rewrite HX. rewrite (aval_get _ _ _ _ AX) by lia. cbn [rbind].
      eapply rok_aset_next; [exact Ha|lia|reflexivity|]. auto. }
    intros ax Hax. apply full in Hax.
    eapply rok_conseq; [eapply (run_fix L) with (w := bview tris pe tb x xbf)|].
    - unfold mesh_is. cbn. repeat (split; [first [reflexivity|assumption]|]). assumption.
    - apply bview_ok. exact F.
    - intros r (w & W1 & W2 & W3 & W4 & W5). exists w. split; [exact W1|]. split; [exact W2|].
      split; [|exact W4]. eapply built_of; [exact F|exact W3|exact W5].
  Qed.
End Finish.

Theorem run_build {G : ofops} (L : ofield_laws G) (x : list (G * G)) tris : tris_ok (length x) tris ->
  rok (build_tri2d x tris) (fun r => exists w, mesh_is r w /\ mesh_ok w /\ built x tris w /\ ccw_boundary w).
Proof.
  intros HT. unfold build_tri2d.
  destruct (add_all [] tris _ _ (new_binv x)) as (tb & pe & E1 & B & X & Vx).
  { cbn. apply HT. }
  cbn [app] in B. cbn in X, Vx. apply rok_bind.
  rewrite E1. cbn [rok]. eapply buildmesh_ok; eassumption.
Qed.

(** ** An edge with three triangles *)
Lemma rfold_all {A S} (body : A -> S -> res S) l : forall s s', rfold body l s = Ok s' ->
  forall a, In a l -> exists s1 s2, body a s1 = Ok s2.
Proof.
  induction l as [|b l IH]; intros s s' H a Ha; [destruct Ha|].
  cbn [rfold] in H. destruct (body b s) as [s1|er] eqn:Eb; cbn [rbind] in H; [|discriminate].
  destruct Ha as [<- |Ha]; [eauto|]. eapply IH; eassumption.
Qed.
Lemma rfor_all {S} (body : nat -> S -> res S) n : forall lo s s', rfor lo n body s = Ok s' ->
  forall i, lo <= i < lo + n -> exists s1 s2, body i s1 = Ok s2.
Proof.
  induction n as [|n IH]; intros lo s s' H i Hi; [lia|].
  cbn [rfor] in H. destruct (body lo s) as [s1|er] eqn:Eb; cbn [rbind] in H; [|discriminate].
  destruct (Nat.eq_dec i lo) as [->|N]; [eauto|]. eapply IH; [exact H|lia].
Qed.
Lemma rbind_ok {A B} (r : res A) (f : A -> res B) b : rbind r f = Ok b -> exists a, r = Ok a /\ f a = Ok b.
Proof. destruct r; cbn; [eauto|discriminate]. Qed.

Theorem build_only {G : ofops} (x : list (G * G)) tris r :
  (forall v0 v1 v2, In (v0, v1, v2) tris ->
     v0 < length x /\ v1 < length x /\ v2 < length x /\ v0 <> v1 /\ v1 <> v2 /\ v2 <> v0) ->
  build_tri2d x tris = Ok r -> forall a b, a <> b -> sharing tris a b <= 2.
Proof.
  intros HT H a b Hab. unfold build_tri2d in H.
  destruct (add_all [] tris _ _ (new_binv x)) as (tb & pe & E1 & B & X & Vx); [cbn; apply HT|].
  cbn [app] in B. cbn in X, Vx. rewrite E1 in H. cbn [rbind] in H.
  destruct (le_lt_dec (sharing tris a b) 2) as [|Hs]; [assumption|exfalso].
  (* there is an edge between the vertices *)
  assert (Hex : exists p, p < length (tb_heap tb) /\ joins (ev tb p) a b).
  { assert (Hf : exists t, In t tris /\ has t a = true /\ has t b = true).
    { unfold sharing in Hs. destruct (filter (fun t => has t a && has t b) tris) as [|t l] eqn:Ef; [cbn in Hs; lia|].
      exists t. assert (Ht : In t (filter (fun t => has t a && has t b) tris)) by (rewrite Ef; left; reflexivity).
      apply filter_In in Ht. destruct Ht as [Ht Hh]. apply andb_prop in Hh. tauto. }
    destruct Hf as ([[v0 v1] v2] & Ht & Ha & Hb). apply In_nth_error in Ht. destruct Ht as [j Et].
    destruct (tri_edges _ _ _ B _ _ _ _ Et) as ((A0 & B0) & (A1 & B1) & (A2 & B2)).
    assert (J0 := srt_joins v1 v2). assert (J1 := srt_joins v2 v0). assert (J2 := srt_joins v0 v1).
    rewrite <- B0 in J0. rewrite <- B1 in J1. rewrite <- B2 in J2.
    assert (JS : forall q u v, joins q u v -> joins q v u) by (unfold joins; tauto).
    unfold has in Ha, Hb. cbn [fst snd] in Ha, Hb. rewrite !orb_true_iff, !Nat.eqb_eq in Ha, Hb.
    destruct Ha as [[<- | <-]| <-], Hb as [[<- | <-]| <-]; try congruence; eauto 6. }
  destruct Hex as (p & Hp & J).
  assert (Hu := uses_sharing _ _ _ _ B Vx HT p a b Hp J).
  destruct (nb_uses _ _ _ B p Hp) as [N1 _]. rewrite Hu in N1.
  unfold buildmesh_tri2dbuilder in H. cbv zeta in H.
  apply rbind_ok in H. destruct H as (xb & _ & H).
  apply rbind_ok in H. destruct H as (t & _ & H).
  apply rbind_ok in H. destruct H as (s & H & _).
  unfold build_edges in H.
  destruct (li_l _ (bi_l _ _ _ B)) as (lst & Al & Hl).
  destruct (ent_ok _ _ _ _ B Vx p Hp) as (_ & Lt & Lv).
  destruct (rfor_all _ _ _ _ _ H (fst (ev tb p))) as (s1 & s2 & H1).
  { cbn [ev ends_of fst]. rewrite Vx. lia. }
  cbv beta in H1. rewrite (aval_get _ _ _ _ Al) in H1 by (cbn [ev ends_of fst]; rewrite Vx; lia). cbn [rbind] in H1.
  destruct (rfold_all _ _ _ _ H1 p) as ([[e eb] xb1] & s4 & H2).
  { apply Hl; [cbn [ev ends_of fst]; rewrite Vx; lia|]. exists (ent tb p). split; [apply ent_nth; exact Hp|reflexivity]. }
  unfold build_edge, hget in H2. rewrite (ent_nth tb p Hp) in H2. cbn [rbind] in H2.
  apply rbind_ok in H2. destruct H2 as (e1 & _ & H2).
  apply rbind_ok in H2. destruct H2 as (e2 & H2 & _).
  change (ee_neighbours (ent tb p)) with (nb tb p) in H2. rewrite N1 in H2.
  unfold rassert in H2.
  destruct (Nat.eqb_spec (sharing tris a b) 1); [lia|]. destruct (Nat.eqb_spec (sharing tris a b) 2); [lia|].
  discriminate H2.
Qed.
