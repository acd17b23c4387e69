(** * Triangular meshes in the plane: deciding the consistency of a literal mesh *)
From Coq Require Import Arith Lia List Bool.
From Verif Require Import Fld Prog Arr HmSpec Tri2d Tri2dSpec Tri2dP Tri2dP2 Tri2dP3 Tri2dP4.
Import ListNotations.

Section Literal.
  Context {K : fops}.
  Variables (x : list (K * K)) (e : list (nat * nat)) (t : list (nat * nat * nat)) (xb eb : list nat).

  Definition lmesh : tri2d K :=
    T2 (length x) (length e) (length t) (aof x) (aof e) (aof t) (aof xb) (aof eb).
  Definition lview : mview K :=
    MV (length x) (length e) (length t) (fun i => nth i x (f0, f0)) (fun i => nth i e (0, 0))
       (fun j k => tedge (nth j t (0, 0, 0)) k) (fun i => nth i xb 0) (fun i => nth i eb 0).

  Lemma lmesh_is : length xb = length x -> length eb = length e -> mesh_is lmesh lview.
  Proof.
    intros Hx He. unfold mesh_is, lmesh, lview.
    cbn [t2_x t2_xb t2_e t2_eb t2_t t2_vertices t2_edges t2_triangles mV mE mT mx me mt mxb meb].
    repeat (split; [reflexivity|]).
    split; [apply aof_val|]. split; [apply aof_val|]. split.
    - eapply aval_ext; [apply aof_val with (d := (0, 0, 0))|]. intros i _. cbn.
      destruct (nth i t (0, 0, 0)) as [[a b] c]. reflexivity.
    - rewrite <- Hx, <- He. split; apply aof_val.
  Qed.
End Literal.

Definition all (n : nat) (P : nat -> bool) : bool := forallb P (seq 0 n).
Lemma all_spec n P : all n P = true -> forall i, i < n -> P i = true.
Proof. unfold all. rewrite forallb_forall. intros H i Hi. apply H, in_seq. lia. Qed.

Definition joinsb (p : nat * nat) (a b : nat) : bool :=
  ((fst p =? a) && (snd p =? b)) || ((fst p =? b) && (snd p =? a)).
Lemma joinsb_spec p a b : joinsb p a b = true -> joins p a b.
Proof.
  unfold joinsb, joins. destruct p as [u v]. cbn [fst snd]. rewrite orb_true_iff, !andb_true_iff, !Nat.eqb_eq.
  intros [[-> ->]|[-> ->]]; auto.
Qed.

Section Okb.
  Context {K : fops} (w : mview K).
  Definition cornersb (j v0 v1 v2 : nat) : bool :=
    negb (v0 =? v1) && negb (v1 =? v2) && negb (v2 =? v0) && all 3 (fun k => mt w j k <? mE w) &&
    joinsb (me w (mt w j 0)) v1 v2 && joinsb (me w (mt w j 1)) v2 v0 && joinsb (me w (mt w j 2)) v0 v1.
  Definition okb : bool :=
    all (mE w) (fun i => (fst (me w i) <? mV w) && (snd (me w i) <? mV w) && negb (fst (me w i) =? snd (me w i))) &&
    all (mT w) (fun j => let t := mt w j in
      cornersb j (cv w (t 1) (t 2)) (cv w (t 2) (t 0)) (cv w (t 0) (t 1))) &&
    all (mE w) (fun i => negb (meb w i =? 0) || (adjacent w i =? 2)) &&
    all (mE w) (fun i => negb (meb w i =? 1) || (adjacent w i =? 1)) &&
    all (mE w) (fun i => negb (meb w i =? 1) ||
      (negb (mxb w (fst (me w i)) =? 0) && negb (mxb w (snd (me w i)) =? 0))).

  Lemma negb_eqb a b : negb (a =? b) = true -> a <> b.
  Proof. destruct (Nat.eqb_spec a b); [discriminate|auto]. Qed.

  Lemma cornersb_spec j v0 v1 v2 : cornersb j v0 v1 v2 = true -> corners w j v0 v1 v2.
  Proof.
    unfold cornersb. rewrite !andb_true_iff. intros ((((((A & B) & C) & D) & E) & F) & G).
    repeat split; try (apply negb_eqb; assumption); try (apply joinsb_spec; assumption).
    intros k Hk. apply Nat.ltb_lt. exact (all_spec _ _ D k Hk).
  Qed.

  Lemma okb_spec : okb = true -> mesh_ok w.
  Proof.
    unfold okb. rewrite !andb_true_iff. intros ((((A & B) & C) & D) & E).
    split; [|split; [|split; [|split]]].
    - intros i Hi. pose proof (all_spec _ _ A i Hi) as H. cbv beta in H. rewrite !andb_true_iff in H.
      destruct H as ((H1 & H2) & H3). apply Nat.ltb_lt in H1, H2. apply negb_eqb in H3. auto.
    - intros j Hj. pose proof (all_spec _ _ B j Hj) as H. cbv beta zeta in H. apply cornersb_spec in H. eauto.
    - intros i Hi Hb. pose proof (all_spec _ _ C i Hi) as H. cbv beta in H. rewrite Hb in H. apply Nat.eqb_eq. exact H.
    - intros i Hi Hb. pose proof (all_spec _ _ D i Hi) as H. cbv beta in H. rewrite Hb in H. apply Nat.eqb_eq. exact H.
    - intros i Hi Hb. pose proof (all_spec _ _ E i Hi) as H. cbv beta in H. rewrite Hb in H.
      change (negb (mxb w (fst (me w i)) =? 0) && negb (mxb w (snd (me w i)) =? 0) = true) in H.
      rewrite andb_true_iff in H. destruct H as [H1 H2]. split; apply negb_eqb; assumption.
  Qed.
End Okb.

Lemma literal_ok {K : fops} (m : tri2d K) V E T x e t xb eb :
  m = T2 V E T (aof x) (aof e) (aof t) (aof xb) (aof eb) ->
  V = length x -> E = length e -> T = length t ->
  length xb = V -> length eb = E -> okb (lview x e t xb eb) = true ->
  exists w, mesh_is m w /\ mesh_ok w /\ mV w = V /\ mE w = E /\ mT w = T.
Proof.
  intros -> -> -> -> Hx He Hb. exists (lview x e t xb eb).
  split; [apply (lmesh_is x e t xb eb); assumption|]. split; [apply okb_spec; exact Hb|]. auto.
Qed.

Section Shipped.
  Context {K : fops}.
  Lemma unitsquare_ok : exists w, mesh_is (new_unitsquare_tri2d (K := K)) w /\ mesh_ok w /\ mV w = 4 /\ mE w = 5 /\ mT w = 2.
  Proof. eapply literal_ok; [reflexivity..|vm_compute; reflexivity]. Qed.
  Lemma unitcircle_ok : exists w, mesh_is (new_unitcircle_tri2d (K := K)) w /\ mesh_ok w /\ mV w = 5 /\ mE w = 8 /\ mT w = 4.
  Proof. eapply literal_ok; [reflexivity..|vm_compute; reflexivity]. Qed.
  Lemma lshape_ok : exists w, mesh_is (new_lshape_tri2d (K := K)) w /\ mesh_ok w /\ mV w = 8 /\ mE w = 13 /\ mT w = 6.
  Proof. eapply literal_ok; [reflexivity..|vm_compute; reflexivity]. Qed.
  Lemma ushape_ok : exists w, mesh_is (new_ushape_tri2d (K := K)) w /\ mesh_ok w /\ mV w = 23 /\ mE w = 46 /\ mT w = 24.
  Proof. eapply literal_ok; [reflexivity..|vm_compute; reflexivity]. Qed.
End Shipped.
