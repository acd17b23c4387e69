(** * Construction of triangular meshes: building the mesh *)
From Coq Require Import Arith Lia List Bool.
From Verif Require Import Fld Ord Prog Arr HmSpec Tri2d Tri2dSpec Tri2dP Tri2dP2 Tri2dP3 Tri2db Tri2dbSpec Tri2dbP Tri2dbP2.
Import ListNotations.

Section Build.
  Context {G : ofops} (L : ofield_laws G).
  Variables (tris : list (nat * nat * nat)) (pe : nat -> nat -> nat) (tb : builder G) (x : list (G * G)).
  Hypothesis HB : binv tris pe tb.
  Hypothesis HV : tb_vertices tb = length x.
  Hypothesis HX : tb_x tb = aof x.
  Hypothesis HT : forall v0 v1 v2, In (v0, v1, v2) tris ->
    v0 < length x /\ v1 < length x /\ v2 < length x /\ v0 <> v1 /\ v1 <> v2 /\ v2 <> v0.

  Notation V := (length x).
  Notation E := (length (tb_heap tb)).
  Notation T := (length tris).

  Definition ent (p : nat) : edgeentry := nth p (tb_heap tb) (EE 0 0 0 0).
  Lemma ent_nth p : p < E -> nth_error (tb_heap tb) p = Some (ent p).
  Proof. intros H. apply nth_error_nth'. exact H. Qed.
  Lemma ent_some p e : nth_error (tb_heap tb) p = Some e -> p < E /\ e = ent p.
  Proof.
    intros H. assert (p < E) by (apply nth_error_Some; congruence). split; [assumption|].
    rewrite (ent_nth p) in H by assumption. congruence.
  Qed.

  Definition ev (p : nat) : nat * nat := ends_of (ent p).
  Definition nb (p : nat) : nat := ee_neighbours (ent p).

  Lemma ent_ok p : p < E -> ee_name (ent p) = p /\ ee_v0 (ent p) < ee_v1 (ent p) /\ ee_v1 (ent p) < V.
  Proof. intros H. rewrite <- HV. apply (li_e _ (bi_l _ _ _ HB)). apply ent_nth. exact H. Qed.

  Lemma tri_edges j v0 v1 v2 : nth_error tris j = Some (v0, v1, v2) ->
    (pe j 0 < E /\ ev (pe j 0) = srt v1 v2) /\ (pe j 1 < E /\ ev (pe j 1) = srt v2 v0) /\
    (pe j 2 < E /\ ev (pe j 2) = srt v0 v1).
  Proof.
    intros H. destruct (bi_e _ _ _ HB j _ H) as ((e0 & A0 & B0) & (e1 & A1 & B1) & (e2 & A2 & B2)).
    cbn [fst snd] in *. apply ent_some in A0, A1, A2.
    destruct A0 as [A0 ->], A1 as [A1 ->], A2 as [A2 ->]. auto.
  Qed.

  Lemma tri_nth j : j < T -> exists v0 v1 v2, nth_error tris j = Some (v0, v1, v2).
  Proof.
    intros H. destruct (nth_error tris j) as [[[v0 v1] v2]|] eqn:Et; [eauto|].
    apply nth_error_None in Et. lia.
  Qed.

  (** The triangles *)
  Lemma build_triangles_ok : rok (build_triangles tb (anew T))
    (fun t => aval t T (fun j => (pe j 0, pe j 1, pe j 2))).
  Proof.
    unfold build_triangles. rewrite (bi_t _ _ _ HB).
    eapply rok_fold with (Inv := fun pre t => aprt t T (fun j => In (TE j (pe j 0) (pe j 1) (pe j 2)) pre)
      (fun j => (pe j 0, pe j 1, pe j 2))).
    - apply anew_prt. intros i Hi [].
    - intros pre te t Hin Ht. apply in_rev in Hin. apply in_map_iff in Hin. destruct Hin as (j & <- & Hj).
      apply in_seq in Hj. cbn [te_e0 te_e1 te_e2 te_name].
      destruct (tri_nth j ltac:(lia)) as (v0 & v1 & v2 & Et).
      destruct (tri_edges _ _ _ _ Et) as ((A0 & _) & (A1 & _) & (A2 & _)).
      unfold hget. rewrite !ent_nth by assumption. cbn [rbind].
      rewrite (proj1 (ent_ok _ A0)), (proj1 (ent_ok _ A1)), (proj1 (ent_ok _ A2)).
      eapply rok_aset_prt; [exact Ht|lia|]. intros t' Ht'.
      eapply aprt_ext; [exact Ht'| |]; cbv beta.
      + intros i Hi [Heq|Hin]; [left; congruence|right; exact Hin].
      + intros i Hi _. unfold afupd. destruct (Nat.eqb_spec i j); [subst; reflexivity|reflexivity].
    - intros t Ht. eapply aprt_aval; [|exact Ht]. cbv beta. intros j Hj. rewrite rev_involutive.
      apply (in_map (fun j => TE j (pe j 0) (pe j 1) (pe j 2))). apply in_seq. lia.
  Qed.

  (** The edges *)
  Hypothesis Hnb : forall p, p < E -> nb p = 1 \/ nb p = 2.

  Definition ebf (p : nat) : nat := b2n (nb p =? 1).
  Definition touched (D : nat -> Prop) (v : nat) : Prop :=
    exists p, p < E /\ D p /\ nb p = 1 /\ (fst (ev p) = v \/ snd (ev p) = v).

  Definition einv3 (D : nat -> Prop) (s : bstate) : Prop :=
    let '(e, eb, xb) := s in
    aprt e E D ev /\ aprt eb E D ebf /\
    exists f, aval xb V f /\ forall v, v < V -> (f v = 1 /\ touched D v) \/ (f v = 0 /\ ~ touched D v).

  Lemma einv3_ext (D D' : nat -> Prop) s : (forall p, p < E -> (D p <-> D' p)) -> einv3 D s -> einv3 D' s.
  Proof.
    intros HD. destruct s as [[e eb] xb]. intros (A & B & f & C & F).
    split; [eapply aprt_ext; [exact A|intros i Hi Hd; apply HD; assumption|reflexivity]|].
    split; [eapply aprt_ext; [exact B|intros i Hi Hd; apply HD; assumption|reflexivity]|].
    exists f. split; [exact C|].
    assert (HT' : forall v, touched D v <-> touched D' v).
    { intros v. split; intros (p & P1 & P2 & P3); exists p; (split; [exact P1|split; [apply HD; assumption|exact P3]]). }
    intros v Hv. rewrite <- HT'. apply F. exact Hv.
  Qed.

  Lemma build_edge_ok D p s : p < E -> einv3 D s -> rok (build_edge tb p s) (einv3 (fun q => q = p \/ D q)).
  Proof.
    intros Hp. destruct s as [[e eb] xb]. intros (A & B & f & C & F).
    unfold build_edge, hget. rewrite (ent_nth p Hp). cbn [rbind].
    destruct (ent_ok p Hp) as (En & Lt & Lv). rewrite En.
    apply rok_bind. eapply rok_aset_prt; [exact A|exact Hp|]. intros e' A'.
    apply rok_bind. apply rok_assert.
    { fold (nb p). destruct (Hnb p Hp) as [-> | ->]; reflexivity. }
    apply rok_bind. eapply rok_aset_prt; [exact B|exact Hp|]. intros eb' B'.
    assert (A'' : aprt e' E (fun q => q = p \/ D q) ev).
    { eapply aprt_ext; [exact A'|auto|]. intros i Hi _. unfold afupd. destruct (Nat.eqb_spec i p); [subst|]; reflexivity. }
    assert (B'' : aprt eb' E (fun q => q = p \/ D q) ebf).
    { eapply aprt_ext; [exact B'|auto|]. intros i Hi _. unfold afupd. destruct (Nat.eqb_spec i p); [subst|]; reflexivity. }
    assert (TO : forall v, touched (fun q => q = p \/ D q) v <->
      touched D v \/ nb p = 1 /\ (fst (ev p) = v \/ snd (ev p) = v)).
    { intros v. split.
      - intros (q & Q1 & [-> |Q2] & Q3 & Q4); [right; auto|left; exists q; auto].
      - intros [(q & Q1 & Q2 & Q3 & Q4)|[Q3 Q4]]; [exists q; auto|exists p; auto]. }
    fold (nb p). destruct (Nat.eqb_spec (nb p) 1) as [E1|N1].
    - apply rok_bind. eapply rok_aset; [exact C|lia|]. intros xb1 C1.
      apply rok_bind. eapply rok_aset; [exact C1|lia|]. intros xb2 C2.
      cbn [rok einv3]. split; [exact A''|]. split; [exact B''|]. eexists. split; [exact C2|].
      intros v Hv. rewrite TO. unfold afupd. cbn [ev ends_of fst snd].
      destruct (Nat.eqb_spec v (ee_v1 (ent p))) as [->|M1]; [left; auto|].
      destruct (Nat.eqb_spec v (ee_v0 (ent p))) as [->|M0]; [left; auto|].
      destruct (F v Hv) as [[F1 F2]|[F1 F2]]; [left; auto|right]. split; [exact F1|].
      intros [?|[_ [?|?]]]; auto.
    - cbn [rok einv3]. split; [exact A''|]. split; [exact B''|]. exists f. split; [exact C|].
      intros v Hv. rewrite TO. destruct (F v Hv) as [[F1 F2]|[F1 F2]]; [left; auto|right].
      split; [exact F1|]. intros [?|[? _]]; auto.
  Qed.

  Lemma build_edges_ok s : einv3 (fun _ => False) s -> rok (build_edges tb s) (einv3 (fun _ => True)).
  Proof.
    intros Hs. destruct (li_l _ (bi_l _ _ _ HB)) as (lst & Al & Hl). rewrite HV in Al, Hl.
    unfold build_edges. rewrite HV.
    eapply rok_for with (Inv := fun i => einv3 (fun p => fst (ev p) < i)).
    - eapply einv3_ext; [|exact Hs]. intros p _. cbv beta. lia.
    - intros i s' Hi Hs'. rewrite (aval_get _ _ _ _ Al) by lia. cbn [rbind].
      eapply rok_fold with (Inv := fun pre => einv3 (fun p => In p pre \/ fst (ev p) < i)).
      + eapply einv3_ext; [|exact Hs']. intros p _. cbn [In]. tauto.
      + intros pre p s1 Hin Hs1. apply Hl in Hin; [|lia]. destruct Hin as (e & Ee & _).
        apply ent_some in Ee. destruct Ee as [Hp _].
        eapply rok_conseq; [eapply build_edge_ok; [exact Hp|exact Hs1]|].
        intros s2. apply einv3_ext. intros q _. cbn [In]. intuition.
      + intros s1. apply einv3_ext. intros p Hp. rewrite <- in_rev. rewrite Hl by lia. split.
        * intros [(e & Ee & Ev)|Hlt]; [|lia]. apply ent_some in Ee. destruct Ee as [_ ->].
          cbn [ev ends_of fst]. lia.
        * intros Hlt. destruct (Nat.eq_dec (fst (ev p)) i) as [Eq|Nq]; [left|right; lia].
          exists (ent p). split; [apply ent_nth; exact Hp|exact Eq].
    - intros s'. apply einv3_ext. intros p Hp. destruct (ent_ok p Hp) as (_ & A & B). cbn [ev ends_of fst].
      split; [auto|]. intros _. lia.
  Qed.

  (** The mesh before the orientation of the boundary *)
  Variable xbf : nat -> nat.
  Definition bview : mview G := MV V E T (fun i => nth i x (f0, f0)) ev pe xbf ebf.

  Lemma sort_unique p a b : p < E -> joins (ev p) a b -> ev p = srt a b.
  Proof.
    intros Hp J. destruct (ent_ok p Hp) as (_ & A & _). unfold ev, ends_of in *.
    unfold srt. destruct J as [J|J]; injection J as J0 J1; destruct (Nat.ltb_spec b a); f_equal; lia.
  Qed.
  Lemma ev_inj p q : p < E -> q < E -> ev p = ev q -> p = q.
  Proof. intros Hp Hq Eq. eapply (li_u _ (bi_l _ _ _ HB)); [apply ent_nth; exact Hp|apply ent_nth; exact Hq|exact Eq]. Qed.

  Lemma bcorners j v0 v1 v2 : nth_error tris j = Some (v0, v1, v2) -> corners bview j v0 v1 v2.
  Proof.
    intros Et. destruct (tri_edges _ _ _ _ Et) as ((A0 & B0) & (A1 & B1) & (A2 & B2)).
    assert (Hin : In (v0, v1, v2) tris) by (eapply nth_error_In; exact Et).
    destruct (HT v0 v1 v2 Hin) as (_ & _ & _ & N1 & N2 & N3).
    unfold corners, bview; cbn [mt mE me]. repeat (split; [assumption|]).
    split; [intros [|[|[|k]]] Hk; try assumption; lia|].
    rewrite B0, B1, B2. split; [|split]; apply srt_joins.
  Qed.

  (** Counters *)
  Definition tri_has (a b : nat) (t : nat * nat * nat) : nat := if has t a && has t b then 1 else 0.
  Lemma sharing_sum a b (l : list (nat * nat * nat)) :
    sharing l a b = nsum (length l) (fun j => match nth_error l j with Some t => tri_has a b t | None => 0 end).
  Proof.
    induction l as [|t l IH] using rev_ind; [reflexivity|].
    unfold sharing in *. rewrite filter_app, app_length, IH.
    replace (length (l ++ [t])) with (S (length l)) by (rewrite app_length; cbn; lia). cbn [nsum].
    rewrite nth_error_app2 by lia. rewrite Nat.sub_diag. cbn [nth_error]. f_equal.
    - apply nsum_eq. intros j Hj. rewrite nth_error_app1 by exact Hj. reflexivity.
    - cbn [filter]. unfold tri_has. destruct (has t a && has t b); reflexivity.
  Qed.

  Lemma has_count v0 v1 v2 a b : v0 <> v1 -> v1 <> v2 -> v2 <> v0 -> a < b ->
    (if (fst (srt v1 v2) =? a) && (snd (srt v1 v2) =? b) then 1 else 0) +
    (if (fst (srt v2 v0) =? a) && (snd (srt v2 v0) =? b) then 1 else 0) +
    (if (fst (srt v0 v1) =? a) && (snd (srt v0 v1) =? b) then 1 else 0) = tri_has a b (v0, v1, v2).
  Proof.
    intros N1 N2 N3 Hab. unfold tri_has, has, srt. cbn [fst snd].
    destruct (Nat.ltb_spec v2 v1), (Nat.ltb_spec v0 v2), (Nat.ltb_spec v1 v0); cbn [fst snd]; try lia.
    all: destruct (Nat.eqb_spec v0 a), (Nat.eqb_spec v1 a), (Nat.eqb_spec v2 a),
      (Nat.eqb_spec v0 b), (Nat.eqb_spec v1 b), (Nat.eqb_spec v2 b); cbn; lia.
  Qed.

  Lemma uses_sharing p a b : p < E -> joins (ev p) a b -> uses T pe p = sharing tris a b.
  Proof.
    intros Hp J.
    assert (G1 : forall a b, a < b -> ev p = (a, b) -> uses T pe p = sharing tris a b).
    { clear a b J. intros a b Hab Ep. rewrite sharing_sum. unfold uses. apply nsum_eq. intros j Hj.
      destruct (tri_nth j Hj) as (v0 & v1 & v2 & Et). rewrite Et.
      destruct (tri_edges _ _ _ _ Et) as ((A0 & B0) & (A1 & B1) & (A2 & B2)).
      assert (Hin : In (v0, v1, v2) tris) by (eapply nth_error_In; exact Et).
      destruct (HT v0 v1 v2 Hin) as (_ & _ & _ & N1 & N2 & N3).
      rewrite <- (has_count v0 v1 v2 a b N1 N2 N3 Hab). rewrite <- B0, <- B1, <- B2.
      assert (G2 : forall q, q < E -> (if q =? p then 1 else 0) = if (fst (ev q) =? a) && (snd (ev q) =? b) then 1 else 0).
      { intros q Hq. destruct (Nat.eqb_spec q p) as [->|N].
        - rewrite Ep. cbn. rewrite !Nat.eqb_refl. reflexivity.
        - destruct (Nat.eqb_spec (fst (ev q)) a), (Nat.eqb_spec (snd (ev q)) b); cbn; try reflexivity.
          exfalso. apply N. apply ev_inj; [exact Hq|exact Hp|]. rewrite Ep. destruct (ev q); cbn in *; congruence. }
      cbn [nsum]. rewrite !G2 by assumption. lia. }
    destruct (ent_ok p Hp) as (_ & Lt & _).
    destruct J as [J|J].
    - apply G1; [|exact J]. unfold ev, ends_of in J. injection J as <- <-. exact Lt.
    - assert (S2 : sharing tris a b = sharing tris b a).
      { unfold sharing. f_equal. apply filter_ext. intros t. apply andb_comm. }
      rewrite S2. apply G1; [|exact J]. unfold ev, ends_of in J. injection J as <- <-. exact Lt.
  Qed.

  Lemma nb_uses p : p < E -> nb p = uses T pe p /\ 1 <= nb p.
  Proof. intros Hp. apply (bi_u _ _ _ HB). apply ent_nth. exact Hp. Qed.
End Build.
