(** * Finite elements: matrices built and assembled from the triangles *)
From Coq Require Import Arith Lia List Bool Ring.
From Verif Require Import Fld Ord Prog Arr HmSpec Sparse SparseP PropSparse Tri2d Tri2dSpec Tri2dP Tri2dP3 Fem FemSpec FemP FemP2.
Import ListNotations.
Local Open Scope nat_scope.

Section Run.
  Context {K : ofops} (L : ring_laws K).
  Add Ring Kring_fem4 : (rl_ring K L).
  Context (dc : tri2dp1 K) (w : mview K) (num : nat -> nat) (Hs : space_is dc w num) (Hok : mesh_ok w).

  Lemma corners_unique j a0 a1 a2 b0 b1 b2 : corners w j a0 a1 a2 -> corners w j b0 b1 b2 ->
    a0 = b0 /\ a1 = b1 /\ a2 = b2.
  Proof.
    intros A B. destruct (corners_cv _ _ _ _ _ A) as (P0 & P1 & P2).
    destruct (corners_cv _ _ _ _ _ B) as (Q0 & Q1 & Q2). repeat split; congruence.
  Qed.
  Lemma corner_iff j v0 v1 v2 u : corners w j v0 v1 v2 -> (corner w j u <-> u = v0 \/ u = v1 \/ u = v2).
  Proof.
    intros C. split; [|intros H; exists v0, v1, v2; auto].
    intros (a0 & a1 & a2 & A & H). destruct (corners_unique _ _ _ _ _ _ _ A C) as (-> & -> & ->). exact H.
  Qed.
  Lemma corner_lt j u : corner w j u -> u < mV w.
  Proof. intros (a0 & a1 & a2 & A & H). pose proof (corners_lt w Hok _ _ _ _ A). lia. Qed.

  (** ** Building *)
  Definition near (fl : bool) (d r c : nat) : Prop :=
    exists j u v, j < d /\ corner w j u /\ corner w j v /\ isfree w u = true /\ isfree w v = fl /\ num u = r /\ num v = c.

  Lemma run_pattern fl (loop : nat * nat * nat -> spat -> res spat) :
    0 < p1_ndof dc -> 0 < ncols dc fl ->
    (forall xt sp, (forall k, k < 3 -> at3 xt k < mV w) ->
       loop xt sp = rfold addp (tri_list w num fl xt (fun _ _ => @f0 K)) sp) ->
    rok (let* sp := new_sparsepattern (p1_ndof dc) (ncols dc fl) in
         let* sp := rfor 0 (t2_triangles (p1_t2 dc)) (fun d sp =>
           let* xt := getvertices_tri2d (p1_t2 dc) d in loop xt sp) sp in
         new_zero_sparsematrix sp)
      (fun a => sparse_is a (p1_ndof dc) (ncols dc fl) (near fl (mT w)) (fun _ _ => @f0 K)).
  Proof.
    intros Hr Hc Hl. pose proof Hs as (Hm & _). pose proof Hm as (_ & _ & ET & _).
    apply rok_bind. apply rok_new_pat; [exact Hr|exact Hc|]. intros sp0 H0. apply rok_bind. rewrite ET.
    apply (rok_for (fun d sp => pat_set sp (p1_ndof dc) (ncols dc fl) (near fl d))).
    - eapply pat_set_ext; [exact H0|]. intros r c. split; [tauto|]. intros (j & u & v & H & _). lia.
    - intros d sp Hd Hsp. destruct Hok as (_ & HT & _). destruct (HT d ltac:(lia)) as (v0 & v1 & v2 & C).
      apply rok_bind. rewrite (getvertices_run _ _ Hm d v0 v1 v2) by (try exact C; lia). cbn [rok].
      pose proof (corners_lt w Hok _ _ _ _ C) as (B0 & B1 & B2).
      assert (B : forall k, k < 3 -> at3 (v0, v1, v2) k < mV w).
      { intros k Hk. destruct k as [|[|[|k]]]; cbn; lia. }
      rewrite Hl by exact B.
      eapply rok_conseq.
      + apply rok_addp_list; [exact Hsp|]. intros r c x Hin.
        apply in_tri in Hin as (i & j & Hi & Hj & Ei & Ej & -> & -> & _).
        split; [apply (num_free dc w num Hs); auto|apply (num_cols dc w num Hs); auto].
      + intros sp' Hsp'. eapply pat_set_ext; [exact Hsp'|]. intros r c. cbv beta. split.
        * intros [(j & u & v & Hj & H)|(x & Hin)]; [exists j, u, v; split; [lia|exact H]|].
          apply in_tri in Hin as (i & j & Hi & Hj & Ei & Ej & -> & -> & _). apply Bool.eqb_prop in Ej.
          exists d, (at3 (v0, v1, v2) i), (at3 (v0, v1, v2) j). split; [lia|].
          split; [apply (corner_iff _ _ _ _ _ C); destruct i as [|[|i]]; cbn; auto|].
          split; [apply (corner_iff _ _ _ _ _ C); destruct j as [|[|j]]; cbn; auto|]. auto.
        * intros (j & u & v & Hj & Cu & Cv & Fu & Fv & Eu & Ev). destruct (Nat.eq_dec j d) as [->|N].
          -- right. exists f0. apply in_tri.
             apply (corner_iff _ _ _ _ _ C) in Cu, Cv.
             assert (Y : forall z, z = v0 \/ z = v1 \/ z = v2 -> exists i, i < 3 /\ at3 (v0, v1, v2) i = z).
             { intros z [->|[->| ->]]; [exists 0|exists 1|exists 2]; split; try lia; reflexivity. }
             destruct (Y u Cu) as (i & Hi & Ei). destruct (Y v Cv) as (k & Hk & Ek).
             exists i, k. rewrite Ei, Ek, Fv, Bool.eqb_reflx. auto 8.
          -- left. exists j, u, v. split; [lia|auto 8].
    - change (0 + mT w) with (mT w). intros sp Hsp. eapply rok_conseq; [apply (rok_new_zero_set L); exact Hsp|].
      intros a Ha. eapply (sparse_is_ext); [exact Ha| |reflexivity].
      intros i j Hi. cbv beta. split; [tauto|]. intros H. split; [|exact H].
      destruct H as (j' & u & v & _ & Cu & Cv & _ & Fv & _ & <-). apply (num_cols dc w num Hs).
      + eapply corner_lt; exact Cv.
      + rewrite Fv. apply Bool.eqb_reflx.
  Qed.

  Lemma run_build : 0 < p1_ndof dc -> rok (build_tri2dp1_sparsematrix dc)
    (fun a => sparse_is a (p1_ndof dc) (p1_ndof dc) (near true (mT w)) (fun _ _ => f0)).
  Proof.
    intros Hr. apply (run_pattern true); [exact Hr|exact Hr|]. intros xt sp Hx.
    apply (tri_run dc w num Hs addp true xt (fun _ _ => f0) sp (fun _ _ ii jj sp => addnz_sparsepattern sp ii jj) (fun _ => true));
      [exact Hx|reflexivity|reflexivity].
  Qed.

  Lemma run_build_interaction : 0 < p1_ndof dc -> 0 < p1_nfix dc -> rok (build_tri2dp1_interaction_sparsematrix dc)
    (fun a => sparse_is a (p1_ndof dc) (p1_nfix dc) (near false (mT w)) (fun _ _ => f0)).
  Proof.
    intros Hr Hc. apply (run_pattern false); [exact Hr|exact Hc|]. intros xt sp Hx.
    apply (tri_run dc w num Hs addp false xt (fun _ _ => f0) sp
      (fun _ _ ii jj sp => do* rassert (jj <? p1_nfix dc) in addnz_sparsepattern sp ii jj) (fun ii => ii <? p1_ndof dc));
      [exact Hx|intros ii Hi; apply Nat.ltb_lt; exact Hi|].
    intros i j ii jj s _ _ _ Hj. cbn in Hj. apply Nat.ltb_lt in Hj. rewrite Hj. reflexivity.
  Qed.

  (** ** Assembling *)
  Context (element : K * K -> K * K -> K * K -> nat -> nat -> K) (F : nat -> nat -> nat -> K).
  Definition local (j : nat) (xt : nat * nat * nat) : Prop :=
    exists v0 v1 v2, corners w j v0 v1 v2 /\ (xt = (v1, v2, v0) \/ xt = (v2, v1, v0)).
  Context (HF : forall j xt, j < mT w -> local j xt -> forall a b, a < 3 -> b < 3 ->
    element (mx w (at3 xt 0)) (mx w (at3 xt 1)) (mx w (at3 xt 2)) a b = F j (at3 xt a) (at3 xt b)).
  Context (HF0 : forall j u v, j < mT w -> ~ corner w j u \/ ~ corner w j v -> F j u v = f0).

  Lemma local_ok j : j < mT w -> exists xt, local_vertices (p1_t2 dc) j = Ok xt /\ local j xt.
  Proof.
    intros Hj. destruct Hok as (_ & HT & _). destruct (HT j Hj) as (v0 & v1 & v2 & C).
    destruct (local_run dc w num Hs j v0 v1 v2 Hj C) as (a & b & E & H).
    exists (a, b, v0). split; [exact E|]. exists v0, v1, v2. split; [exact C|].
    destruct H as [[-> ->]|[-> ->]]; auto.
  Qed.
  Lemma local_corner j xt u : local j xt -> (corner w j u <-> u = at3 xt 0 \/ u = at3 xt 1 \/ u = at3 xt 2).
  Proof.
    intros (v0 & v1 & v2 & C & H). rewrite (corner_iff _ _ _ _ _ C). destruct H as [-> | ->]; cbn; tauto.
  Qed.
  Lemma local_lt j xt k : local j xt -> at3 xt k < mV w.
  Proof.
    intros H. apply (corner_lt j). apply (local_corner j xt _ H). destruct k as [|[|k]]; cbn; auto.
  Qed.
  Lemma local_ne j xt : local j xt -> at3 xt 0 <> at3 xt 1 /\ at3 xt 0 <> at3 xt 2 /\ at3 xt 1 <> at3 xt 2.
  Proof.
    intros (v0 & v1 & v2 & (N1 & N2 & N3 & _) & H). destruct H as [-> | ->]; cbn; repeat split; congruence.
  Qed.

  Definition holds (fl : bool) (P : nat -> nat -> Prop) (M : nat -> nat -> K) (d : nat) (a : smat K) : Prop :=
    exists M', sparse_is a (p1_ndof dc) (ncols dc fl) P M' /\
      forall u v, u < mV w -> v < mV w -> isfree w u = true -> isfree w v = fl ->
        M' (num u) (num v) = (M (num u) (num v) + sum d (fun j => F j u v))%F.

  Lemma step_tri fl (P : nat -> nat -> Prop) M d a xt : d < mT w -> local d xt ->
    (forall u v, isfree w u = true -> isfree w v = fl -> together w u v -> P (num u) (num v)) ->
    holds fl P M d a ->
    rok (rfold addm (tri_list w num fl xt (element (mx w (at3 xt 0)) (mx w (at3 xt 1)) (mx w (at3 xt 2)))) a)
        (holds fl P M (S d)).
  Proof.
    intros Hd Hx HP (M' & Ha & HM). eapply rok_conseq.
    - apply (rok_addm_list L); [exact Ha|]. intros r c x Hin.
      apply in_tri in Hin as (i & j & Hi & Hj & Ei & Ej & -> & -> & _).
      split; [apply (num_free dc w num Hs); [eapply local_lt; exact Hx|exact Ei]|].
      split; [apply (num_cols dc w num Hs); [eapply local_lt; exact Hx|exact Ej]|].
      apply HP; [exact Ei|apply Bool.eqb_prop; exact Ej|]. exists d. split; [exact Hd|].
      split; apply (local_corner d xt _ Hx); [destruct i as [|[|i]]|destruct j as [|[|j]]]; cbn; auto.
    - intros a' Ha'. eexists. split; [exact Ha'|]. intros u v Hu Hv Eu Ev. cbv beta.
      rewrite (val_tri L dc w num Hs) by (try assumption; intros; eapply local_lt; exact Hx).
      destruct (local_ne d xt Hx) as (N1 & N2 & N3).
      rewrite (pick_tri L xt _ (F d) u v N1 N2 N3).
      + rewrite HM by assumption. cbn [sum]. ring.
      + intros i j Hi Hj. apply HF; assumption.
      + intros A0 A1 A2. apply HF0; [exact Hd|]. left. rewrite (local_corner d xt _ Hx). tauto.
      + intros A0 A1 A2. apply HF0; [exact Hd|]. right. rewrite (local_corner d xt _ Hx). tauto.
  Qed.

  Definition holds2 (P : nat -> nat -> Prop) M (Pf : nat -> nat -> Prop) Mf d (s : smat K * option (smat K)) (some : bool) : Prop :=
    holds true P M d (fst s) /\ match snd s with Some a => some = true /\ holds false Pf Mf d a | None => some = false end.

  Lemma run_assemble A Af (P : nat -> nat -> Prop) M (Pf : nat -> nat -> Prop) Mf :
    sparse_is A (p1_ndof dc) (p1_ndof dc) P M ->
    (forall u v, isfree w u = true -> isfree w v = true -> together w u v -> P (num u) (num v)) ->
    (forall a, Af = Some a -> sparse_is a (p1_ndof dc) (p1_nfix dc) Pf Mf) ->
    (Af <> None -> forall u v, isfree w u = true -> isfree w v = false -> together w u v -> Pf (num u) (num v)) ->
    rok (assemble_with element dc A Af)
      (fun s => holds2 P M Pf Mf (mT w) s (match Af with Some _ => true | None => false end)).
  Proof.
    intros HA HP HAf HPf. pose proof Hs as (Hm & _). pose proof Hm as (_ & _ & ET & Ax & _).
    unfold assemble_with. rewrite ET.
    apply (rok_for (fun d s => holds2 P M Pf Mf d s (match Af with Some _ => true | None => false end))).
    - split; cbn [fst snd].
      + exists M. split; [exact HA|]. intros. cbn [sum]. ring.
      + destruct Af as [a|]; [|reflexivity]. split; [reflexivity|]. exists Mf. split; [apply HAf; reflexivity|].
        intros. cbn [sum]. ring.
    - intros d [A1 Af1] Hd [H1 H2]. cbn [fst snd] in *.
      destruct (local_ok d ltac:(lia)) as (xt & E & Hx). rewrite E. cbn [rbind].
      destruct (local_ne d xt Hx) as (N1 & N2 & N3).
      apply Nat.eqb_neq in N1, N2, N3. rewrite N1, N2, N3. cbn [negb andb rassert rbind].
      rewrite !(aval_get _ _ _ _ Ax) by (eapply local_lt; exact Hx). cbn [rbind].
      set (At := element (mx w (at3 xt 0)) (mx w (at3 xt 1)) (mx w (at3 xt 2))).
      apply rok_bind.
      match goal with |- rok ?X _ => replace X with (rfold addm (tri_list w num true xt At) A1) end.
      2: { symmetry. apply (tri_run dc w num Hs addm true xt At A1
             (fun i j ii jj A => addentry A ii jj (At i j)) (fun _ => true));
           [intros; eapply local_lt; exact Hx|reflexivity|reflexivity]. }
      eapply rok_conseq; [apply (step_tri true P M d A1 xt ltac:(lia) Hx HP H1)|].
      intros A2 HA2. apply rok_bind.
      destruct Af1 as [a|].
      + destruct H2 as [Hsome H2]. assert (HN : Af <> None) by (destruct Af; [discriminate|discriminate Hsome]).
        apply rok_bind.
        match goal with |- rok ?X _ => replace X with (rfold addm (tri_list w num false xt At) a) end.
        2: { symmetry. apply (tri_run dc w num Hs addm false xt At a
             (fun i j ii jj A => do* rassert (jj <? p1_nfix dc) in addentry A ii jj (At i j)) (fun ii => ii <? p1_ndof dc));
           [intros; eapply local_lt; exact Hx|intros ii Hi; apply Nat.ltb_lt; exact Hi|].
           intros i j ii jj s _ _ _ Hj. cbn in Hj. apply Nat.ltb_lt in Hj. rewrite Hj. reflexivity. }
        eapply rok_conseq; [apply (step_tri false Pf Mf d a xt ltac:(lia) Hx (HPf HN) H2)|].
        intros a2 Ha2. cbn [rok]. split; [exact HA2|]. cbn [snd]. auto.
      + cbn [rok]. split; [exact HA2|exact H2].
    - change (0 + mT w) with (mT w). auto.
  Qed.
End Run.
