(** * Triangular meshes in the plane: the consistency check *)
From Coq Require Import Arith Lia List Bool Permutation.
From Verif Require Import Fld Prog Arr HmSpec Tri2d Tri2dSpec Tri2dP Tri2dP2 Tri2dP3.
Import ListNotations.

(** ** Counting errors *)
Definition grows (body : nat -> nat -> res nat) : Prop :=
  forall i s s', body i s = Ok s' -> s <= s'.

Lemma rfor_grows body lo n s s' : grows body -> rfor lo n body s = Ok s' -> s <= s'.
Proof.
  intros Hg. revert lo s. induction n as [|n IH]; intros lo s H; cbn in H.
  - injection H as ->. lia.
  - destruct (body lo s) as [s1|] eqn:E; cbn in H; [|discriminate].
    apply Hg in E. apply IH in H. lia.
Qed.

Lemma rfor_zero body lo n : grows body ->
  (rfor lo n body 0 = Ok 0 <-> forall i, lo <= i < lo + n -> body i 0 = Ok 0).
Proof.
  intros Hg. revert lo. induction n as [|n IH]; intros lo; cbn.
  - split; [lia|reflexivity].
  - split.
    + intros H i Hi. destruct (body lo 0) as [s1|] eqn:E; cbn in H; [|discriminate].
      pose proof (rfor_grows _ _ _ _ _ Hg H) as L. assert (s1 = 0) by lia. subst s1.
      destruct (Nat.eq_dec i lo) as [->|N]; [exact E|].
      apply (proj1 (IH (S lo)) H). lia.
    + intros H. rewrite H by lia. cbn. apply (proj2 (IH (S lo))). intros i Hi. apply H. lia.
Qed.

Lemma b2n_0 b : b2n b = 0 <-> b = false.
Proof. destruct b; cbn; split; congruence. Qed.

Lemma Ok_inj {A} (x y : A) : Ok x = Ok y -> x = y.
Proof. congruence. Qed.

(** ** The vertex list of a triangle *)
Lemma vinsert_in v l x : In x (vinsert v l) <-> v = x \/ In x l.
Proof.
  unfold vinsert. destruct (existsb (Nat.eqb v) l) eqn:E.
  - apply existsb_exists in E. destruct E as (y & Hy & Ey). apply Nat.eqb_eq in Ey. subst y.
    split; [auto|]. intros [<-|H]; assumption.
  - rewrite in_app_iff. cbn. tauto.
Qed.

Lemma vinsert_nodup v l : NoDup l -> NoDup (vinsert v l).
Proof.
  intros H. unfold vinsert. destruct (existsb (Nat.eqb v) l) eqn:E; [exact H|].
  apply (Permutation_NoDup (l := v :: l)).
  - apply Permutation_cons_append.
  - constructor; [|exact H]. intros Hin.
    assert (existsb (Nat.eqb v) l = true); [|congruence].
    apply existsb_exists. exists v. split; [exact Hin|apply Nat.eqb_refl].
Qed.

Lemma nodup_len (l l' : list nat) : NoDup l -> NoDup l' -> (forall x, In x l <-> In x l') -> length l = length l'.
Proof. intros H H' E. apply Permutation_length, NoDup_Permutation; assumption. Qed.

Section Check.
  Context {K : fops} (m : tri2d K) (w : mview K).
  Hypothesis Hm : mesh_is m w.

  Definition range_ok : Prop :=
    forall i, i < mE w -> fst (me w i) < mV w /\ snd (me w i) < mV w.

  Lemma check_edges_ok : check_edges m = Ok 0 <-> range_ok.
  Proof.
    destruct Hm as (EV & EE & ET & Ax & Ae & At & Axb & Aeb).
    unfold check_edges. rewrite rfor_zero.
    - rewrite EE, EV. split.
      + intros H i Hi. specialize (H i ltac:(lia)). rewrite (aval_get _ _ _ _ Ae Hi) in H. cbn [rbind] in H.
        apply Ok_inj in H. assert (b2n (mV w <=? fst (me w i)) = 0 /\ b2n (mV w <=? snd (me w i)) = 0) as [A B] by lia.
        apply b2n_0 in A, B. apply Nat.leb_gt in A, B. auto.
      + intros H i Hi. rewrite (aval_get _ _ _ _ Ae) by lia. cbn [rbind]. destruct (H i ltac:(lia)) as [A B].
        apply Nat.leb_gt in A, B. rewrite A, B. reflexivity.
    - intros i s s' H. destruct (aget (t2_e m) i); cbn in H; [|discriminate]. injection H as <-. lia.
  Qed.

  Definition bound_ok : Prop :=
    forall i, i < mE w -> meb w i = 1 -> mxb w (fst (me w i)) <> 0 /\ mxb w (snd (me w i)) <> 0.

  Lemma boundary_grows : grows (fun i errors =>
      let* b := aget (t2_eb m) i in
      if b =? 1 then
        let* e := aget (t2_e m) i in
        let* b0 := aget (t2_xb m) (fst e) in
        let* b1 := aget (t2_xb m) (snd e) in
        Ok (errors + b2n (b0 =? 0) + b2n (b1 =? 0))
      else Ok errors).
  Proof.
    intros i s s' H. destruct (aget (t2_eb m) i) as [b|]; cbn in H; [|discriminate].
    destruct (b =? 1); [|injection H as ->; lia].
    destruct (aget (t2_e m) i) as [e|]; cbn in H; [|discriminate].
    destruct (aget (t2_xb m) (fst e)); cbn in H; [|discriminate].
    destruct (aget (t2_xb m) (snd e)); cbn in H; [|discriminate]. injection H as <-. lia.
  Qed.

  Lemma check_boundary_ok : range_ok -> (check_boundary m 0 = Ok 0 <-> bound_ok).
  Proof.
    intros HR. pose proof Hm as (EV & EE & ET & Ax & Ae & At & Axb & Aeb).
    unfold check_boundary. rewrite rfor_zero by apply boundary_grows.
    rewrite EE. split.
    - intros H i Hi Hb. specialize (H i ltac:(lia)). destruct (HR i Hi) as [R0 R1].
      rewrite (aval_get _ _ _ _ Aeb Hi), (aval_get _ _ _ _ Ae Hi) in H. cbn in H. rewrite Hb in H. cbn in H.
      rewrite (aval_get _ _ _ _ Axb R0), (aval_get _ _ _ _ Axb R1) in H. cbn in H. apply Ok_inj in H.
      destruct (Nat.eqb_spec (mxb w (fst (me w i))) 0), (Nat.eqb_spec (mxb w (snd (me w i))) 0); cbn in H; try lia; auto.
    - intros H i Hi. assert (Hi' : i < mE w) by lia. destruct (HR i Hi') as [R0 R1].
      rewrite (aval_get _ _ _ _ Aeb Hi'), (aval_get _ _ _ _ Ae Hi'). cbn [rbind].
      rewrite (aval_get _ _ _ _ Axb R0), (aval_get _ _ _ _ Axb R1). cbn [rbind].
      destruct (Nat.eqb_spec (meb w i) 1) as [Hb|]; [|reflexivity].
      destruct (H i Hi' Hb) as [A B].
      destruct (Nat.eqb_spec (mxb w (fst (me w i))) 0), (Nat.eqb_spec (mxb w (snd (me w i))) 0); cbn; congruence.
  Qed.

  Definition tri_step (t : nat * nat * nat) (k : nat) (s : nat * list nat) : res (nat * list nat) :=
    let '(errors, v) := s in
    if t2_edges m <=? tedge t k then Ok (errors + 1, v)
    else
      let* e := aget (t2_e m) (tedge t k) in
      Ok (errors, vinsert (snd e) (vinsert (fst e) v)).
  Definition tri_body (i errors : nat) : res nat :=
    let* t := aget (t2_t m) i in
    let* (errors, v) := rfor 0 3 (tri_step t) (errors, []) in
    Ok (errors + b2n (negb (length v =? 3))).

  Lemma check_triangles_body : check_triangles m 0 = rfor 0 (t2_triangles m) tri_body 0.
  Proof. reflexivity. Qed.

  Lemma tri_step_grows t k a v a' v' : tri_step t k (a, v) = Ok (a', v') ->
    a <= a' /\ (a' = a -> tedge t k < t2_edges m).
  Proof.
    unfold tri_step. destruct (Nat.leb_spec (t2_edges m) (tedge t k)).
    - intros E. injection E as <- <-. lia.
    - destruct (aget (t2_e m) (tedge t k)); cbn; [|discriminate]. intros E. injection E as <- <-. lia.
  Qed.

  Lemma tri_loop_inv t a r v : rfor 0 3 (tri_step t) (a, []) = Ok (r, v) ->
    a <= r /\ (r = a -> forall k, k < 3 -> tedge t k < t2_edges m).
  Proof.
    cbn [rfor]. destruct (tri_step t 0 (a, [])) as [[a1 v1]|] eqn:E1; cbn [rbind]; [|discriminate].
    destruct (tri_step t 1 (a1, v1)) as [[a2 v2]|] eqn:E2; cbn [rbind]; [|discriminate].
    destruct (tri_step t 2 (a2, v2)) as [[a3 v3]|] eqn:E3; cbn [rbind]; [|discriminate].
    intros E. injection E as <- <-.
    apply tri_step_grows in E1. apply tri_step_grows in E2. apply tri_step_grows in E3.
    split; [lia|]. intros Ea [|[|[|k]]] Hk; lia.
  Qed.

  Lemma tri_body_grows : grows tri_body.
  Proof.
    intros i s s' H. unfold tri_body in H. destruct (aget (t2_t m) i) as [t|]; cbn [rbind] in H; [|discriminate].
    destruct (rfor 0 3 (tri_step t) (s, [])) as [[r v]|] eqn:E; cbn [rbind] in H; [|discriminate].
    apply tri_loop_inv in E. injection H as <-. lia.
  Qed.

  Definition vlist (j : nat) : list nat :=
    let e k := me w (mt w j k) in
    vinsert (snd (e 2)) (vinsert (fst (e 2)) (vinsert (snd (e 1)) (vinsert (fst (e 1))
      (vinsert (snd (e 0)) (vinsert (fst (e 0)) []))))).

  Lemma vlist_ok j : NoDup (vlist j) /\ forall v, In v (vlist j) <->
    exists k, k < 3 /\ (fst (me w (mt w j k)) = v \/ snd (me w (mt w j k)) = v).
  Proof.
    split.
    - unfold vlist. cbv zeta. repeat apply vinsert_nodup. constructor.
    - intros v. unfold vlist. cbv zeta. rewrite !vinsert_in. cbn [In]. split.
      + intros [H|[H|[H|[H|[H|[H|[]]]]]]]; [exists 2|exists 2|exists 1|exists 1|exists 0|exists 0];
          (split; [lia|]); [right|left|right|left|right|left]; exact H.
      + intros ([|[|[|k]]] & Hk & [H|H]); try lia; tauto.
  Qed.

  Lemma three_vlist j : three_vertices w j <-> length (vlist j) = 3.
  Proof.
    destruct (vlist_ok j) as [N E]. split.
    - intros (l & Nl & Ll & El). rewrite <- Ll. apply nodup_len; [exact N|exact Nl|].
      intros x. rewrite E, El. tauto.
    - intros L. exists (vlist j). auto.
  Qed.

  Definition tri_ok : Prop := forall j, j < mT w -> (forall k, k < 3 -> mt w j k < mE w) /\ three_vertices w j.

  Lemma tri_body_run j : j < mT w -> (forall k, k < 3 -> mt w j k < mE w) ->
    tri_body j 0 = Ok (b2n (negb (length (vlist j) =? 3))).
  Proof.
    intros Hj HE. pose proof Hm as (EV & EE & ET & Ax & Ae & At & Axb & Aeb).
    unfold tri_body. rewrite (aval_get _ _ _ _ At Hj). cbn [rbind rfor]. unfold tri_step at 1. cbn [tedge fst snd].
    rewrite EE. destruct (Nat.leb_spec (mE w) (mt w j 0)); [specialize (HE 0); lia|].
    rewrite (aval_get _ _ _ _ Ae) by assumption. cbn [rbind]. unfold tri_step at 1. cbn [tedge fst snd].
    rewrite EE. destruct (Nat.leb_spec (mE w) (mt w j 1)); [specialize (HE 1); lia|].
    rewrite (aval_get _ _ _ _ Ae) by assumption. cbn [rbind]. unfold tri_step at 1. cbn [tedge fst snd].
    rewrite EE. destruct (Nat.leb_spec (mE w) (mt w j 2)); [specialize (HE 2); lia|].
    rewrite (aval_get _ _ _ _ Ae) by assumption. cbn [rbind]. reflexivity.
  Qed.

  Lemma check_triangles_ok : check_triangles m 0 = Ok 0 <-> tri_ok.
  Proof.
    pose proof Hm as (EV & EE & ET & Ax & Ae & At & Axb & Aeb).
    rewrite check_triangles_body, rfor_zero by apply tri_body_grows. rewrite ET. split.
    - intros H j Hj. specialize (H j ltac:(lia)).
      assert (HE : forall k, k < 3 -> mt w j k < mE w).
      { unfold tri_body in H. rewrite (aval_get _ _ _ _ At Hj) in H. cbn [rbind] in H.
        destruct (rfor 0 3 _ (0, [])) as [[r v]|] eqn:E; cbn [rbind] in H; [|discriminate].
        apply Ok_inj in H. apply tri_loop_inv in E. destruct E as [_ E]. rewrite EE in E.
        specialize (E ltac:(lia)). intros [|[|[|k]]] Hk; try lia;
        [apply (E 0)|apply (E 1)|apply (E 2)]; lia. }
      split; [exact HE|]. rewrite (tri_body_run j Hj HE) in H. apply Ok_inj in H. apply b2n_0 in H.
      apply three_vlist. destruct (Nat.eqb_spec (length (vlist j)) 3); [assumption|discriminate].
    - intros H j Hj. destruct (H j ltac:(lia)) as [HE H3]. rewrite tri_body_run by (assumption || lia).
      apply three_vlist in H3. rewrite H3. reflexivity.
  Qed.

  Lemma rok_ainc (a : arr nat) n f i (Q : arr nat -> Prop) : aval a n f -> i < n ->
    (forall a', aval a' n (fun k => f k + (if i =? k then 1 else 0)) -> Q a') -> rok (ainc a i) Q.
  Proof.
    intros Ha Hi HQ. unfold ainc. rewrite (aval_get _ _ _ _ Ha Hi). cbn [rbind].
    eapply rok_aset; [exact Ha|exact Hi|]. intros a' Ha'. apply HQ.
    eapply aval_ext; [exact Ha'|]. intros k _. unfold afupd.
    destruct (Nat.eqb_spec k i), (Nat.eqb_spec i k); subst; try lia; congruence.
  Qed.

  Lemma count_run : (forall j k, j < mT w -> k < 3 -> mt w j k < mE w) ->
    exists en, count_neighbours m = Ok en /\ aval en (mE w) (adjacent w).
  Proof.
    intros HE. pose proof Hm as (EV & EE & ET & Ax & Ae & At & Axb & Aeb).
    apply rok_inv. unfold count_neighbours. rewrite EE, ET.
    apply rok_bind. eapply rok_for with (Inv := fun i en => aprt en (mE w) (fun k => k < i) (fun _ => 0)).
    { apply anew_prt. lia. }
    { intros i en Hi Hen. eapply rok_aset_next; [exact Hen|lia|reflexivity|auto]. }
    intros en Hen. apply full in Hen.
    eapply rok_for with (Inv := fun j en => aval en (mE w)
      (fun i => nsum j (fun j' => nsum 3 (fun k => if mt w j' k =? i then 1 else 0)))).
    { exact Hen. }
    2:{ intros en' H. exact H. }
    intros j en' Hj Hen'. rewrite (aval_get _ _ _ _ At) by lia. cbn [rbind tedge fst snd].
    apply rok_bind. eapply rok_ainc; [exact Hen'|apply HE; lia|]. intros e1 H1.
    apply rok_bind. eapply rok_ainc; [exact H1|apply HE; lia|]. intros e2 H2.
    eapply rok_ainc; [exact H2|apply HE; lia|]. intros e3 H3.
    eapply aval_ext; [exact H3|]. intros i _. cbn [nsum]. lia.
  Qed.

  Definition adj_ok : Prop :=
    (forall i, i < mE w -> meb w i = 0 -> adjacent w i = 2) /\
    (forall i, i < mE w -> meb w i = 1 -> adjacent w i = 1).

  Lemma check_neighbours_ok : (forall j k, j < mT w -> k < 3 -> mt w j k < mE w) ->
    (check_neighbours m 0 = Ok 0 <-> adj_ok).
  Proof.
    intros HE. destruct (count_run HE) as (en & Een & Aen).
    pose proof Hm as (EV & EE & ET & Ax & Ae & At & Axb & Aeb).
    unfold check_neighbours. rewrite Een. cbn [rbind]. rewrite rfor_zero, EE.
    - split.
      + intros H. split; intros i Hi Hb; specialize (H i ltac:(lia));
          rewrite (aval_get _ _ _ _ Aeb Hi), (aval_get _ _ _ _ Aen Hi) in H; cbn [rbind] in H;
          rewrite Hb in H; apply Ok_inj in H;
          [destruct (Nat.eqb_spec (adjacent w i) 2)|destruct (Nat.eqb_spec (adjacent w i) 1)];
          try assumption; exfalso; vm_compute in H; discriminate H.
      + intros [H0 H1] i Hi. assert (Hi' : i < mE w) by lia.
        rewrite (aval_get _ _ _ _ Aeb Hi'), (aval_get _ _ _ _ Aen Hi'). cbn [rbind].
        destruct (Nat.eqb_spec (meb w i) 0) as [E|N]; [rewrite (H0 i Hi' E), E; reflexivity|].
        destruct (Nat.eqb_spec (meb w i) 1) as [E|N1]; [rewrite (H1 i Hi' E); reflexivity|reflexivity].
    - intros i s s' H. destruct (aget (t2_eb m) i); cbn [rbind] in H; [|discriminate].
      destruct (aget en i); cbn [rbind] in H; [|discriminate]. injection H as <-. lia.
  Qed.

  Lemma neighbours_grows a b : check_neighbours m a = Ok b -> a <= b.
  Proof.
    unfold check_neighbours. destruct (count_neighbours m) as [en|]; cbn [rbind]; [|discriminate].
    apply rfor_grows. intros i s s' H. destruct (aget (t2_eb m) i); cbn [rbind] in H; [|discriminate].
    destruct (aget en i); cbn [rbind] in H; [|discriminate]. injection H as <-. lia.
  Qed.

  Lemma check_ok : check_tri2d m = Ok 0 <-> mesh_checked w.
  Proof.
    unfold check_tri2d. split.
    - intros H. destruct (check_edges m) as [a|] eqn:E1; cbn [rbind] in H; [|discriminate].
      destruct (check_boundary m a) as [b|] eqn:E2; cbn [rbind] in H; [|discriminate].
      destruct (check_triangles m b) as [c|] eqn:E3; cbn [rbind] in H; [|discriminate].
      pose proof (neighbours_grows _ _ H). assert (c = 0) by lia. subst c.
      pose proof (rfor_grows tri_body _ _ _ _ tri_body_grows E3). assert (b = 0) by lia. subst b.
      pose proof (rfor_grows _ _ _ _ _ boundary_grows E2). assert (a = 0) by lia. subst a.
      apply check_edges_ok in E1. apply check_boundary_ok in E2; [|exact E1].
      apply check_triangles_ok in E3.
      apply check_neighbours_ok in H; [|intros j k Hj Hk; apply (proj1 (E3 j Hj)); exact Hk].
      destruct H as [G0 G1]. exact (conj E1 (conj E3 (conj G0 (conj G1 E2)))).
    - intros (E1 & E3 & H0 & H1 & E2).
      rewrite (proj2 check_edges_ok E1). cbn [rbind].
      rewrite (proj2 (check_boundary_ok E1) E2). cbn [rbind].
      rewrite (proj2 check_triangles_ok E3). cbn [rbind].
      apply check_neighbours_ok; [|split; assumption].
      intros j k Hj Hk. apply (proj1 (E3 j Hj)). exact Hk.
  Qed.
End Check.

Lemma ok_checked {K : fops} (w : mview K) : mesh_ok w -> mesh_checked w.
Proof.
  intros (He & HT & H0 & H1 & Hb). split; [|split; [|split; [exact H0|split; [exact H1|exact Hb]]]].
  - intros i Hi. destruct (He i Hi) as (A & B & _). auto.
  - intros j Hj. destruct (HT j Hj) as (v0 & v1 & v2 & N1 & N2 & N3 & HE & J0 & J1 & J2).
    split; [exact HE|]. exists [v0; v1; v2]. split; [|split; [reflexivity|]].
    + repeat constructor; cbn; intuition congruence.
    + intros v. split.
      * intros [<-|[<-|[<-|[]]]].
        -- exists 1. split; [lia|]. destruct J1 as [-> | ->]; cbn; auto.
        -- exists 0. split; [lia|]. destruct J0 as [-> | ->]; cbn; auto.
        -- exists 0. split; [lia|]. destruct J0 as [-> | ->]; cbn; auto.
      * intros ([|[|[|k]]] & Hk & H); try lia; cbn.
        -- destruct J0 as [E|E]; rewrite E in H; cbn in H; intuition.
        -- destruct J1 as [E|E]; rewrite E in H; cbn in H; intuition.
        -- destruct J2 as [E|E]; rewrite E in H; cbn in H; intuition.
Qed.
