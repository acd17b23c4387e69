(** * Finite elements: patterns and sums of contributions *)
From Coq Require Import Arith Lia List Bool Ring.
From Verif Require Import Fld Ord Prog Arr HmSpec Sparse SparseP PropSparse Tri2d Tri2dSpec Tri2dP Tri2dP3 Fem FemSpec FemP.
Import ListNotations.
Local Open Scope nat_scope.

(** ** Patterns *)
Definition pat_set (sp : spat) (rows cols : nat) (S : nat -> nat -> Prop) : Prop :=
  exists f, pat_rep sp rows cols f /\
    forall i, i < rows -> NoDup (f i) /\ forall e, In e (f i) <-> fst e = i /\ snd e < cols /\ S i (snd e).

Lemma rok_new_pat rows cols (Q : spat -> Prop) : 0 < rows -> 0 < cols ->
  (forall sp, pat_set sp rows cols (fun _ _ => False) -> Q sp) -> rok (new_sparsepattern rows cols) Q.
Proof.
  intros Hr Hc HQ. apply rok_new_sparsepattern; [exact Hr|exact Hc|]. intros sp H. apply HQ.
  exists (fun _ => []). split; [exact H|]. intros i Hi. split; [constructor|]. intros e. cbn. tauto.
Qed.

Lemma pat_set_ext sp rows cols (S S' : nat -> nat -> Prop) : pat_set sp rows cols S ->
  (forall i j, S i j <-> S' i j) -> pat_set sp rows cols S'.
Proof.
  intros (f & Hf & H) HS. exists f. split; [exact Hf|]. intros i Hi. destruct (H i Hi) as [N E].
  split; [exact N|]. intros e. rewrite E, HS. reflexivity.
Qed.

Lemma rok_addnz sp rows cols S r c (Q : spat -> Prop) : pat_set sp rows cols S -> r < rows -> c < cols ->
  (forall sp', pat_set sp' rows cols (fun i j => S i j \/ (i = r /\ j = c)) -> Q sp') ->
  rok (addnz_sparsepattern sp r c) Q.
Proof.
  intros (f & Hf & H) Hr Hc HQ. eapply rok_addnz_sparsepattern; [exact Hf|exact Hr|exact Hc|].
  intros sp' Hs'. apply HQ. eexists. split; [exact Hs'|]. intros i Hi. destruct (H i Hi) as [N E].
  destruct (find_entry (f r) c) eqn:F; cbn [negb].
  - rewrite andb_false_r. split; [exact N|]. intros e. rewrite E. split; [tauto|].
    intros (A & B & [C|[-> D]]); [tauto|]. split; [exact A|]. split; [exact B|].
    apply find_entry_spec, in_map_iff in F as (e' & E1 & E2). apply E in E2. rewrite D, <- E1. tauto.
  - rewrite andb_true_r. destruct (Nat.eqb_spec i r) as [->|Ne].
    + split.
      * constructor; [|exact N]. intros I. assert (find_entry (f r) c = true); [|congruence].
        apply find_entry_spec, in_map_iff. exists (r, c). auto.
      * intros [e1 e2]. cbn [In fst snd]. rewrite E. cbn [fst snd]. split.
        -- intros [[= <- <-]|?]; tauto.
        -- intros (-> & A & [B|[_ ->]]); auto.
    + split; [exact N|]. intros e. rewrite E. split; [tauto|]. intros (A & B & [C|[D _]]); [tauto|congruence].
Qed.

Definition addp {K : ofops} (t : nat * nat * K) (sp : spat) : res spat :=
  addnz_sparsepattern sp (fst (fst t)) (snd (fst t)).

Lemma rok_addp_list {K : ofops} rows cols (l : list (nat * nat * K)) : forall sp S,
  pat_set sp rows cols S -> (forall r c x, In (r, c, x) l -> r < rows /\ c < cols) ->
  rok (rfold addp l sp) (fun sp' => pat_set sp' rows cols (fun i j => S i j \/ exists x, In (i, j, x) l)).
Proof.
  induction l as [|[[r c] x] l IH]; intros sp S Hs Hl.
  - cbn. eapply pat_set_ext; [exact Hs|]. intros i j. split; [tauto|]. intros [H|[y []]]; exact H.
  - cbn [rfold]. apply rok_bind. destruct (Hl r c x (or_introl eq_refl)) as [Hr Hc].
    unfold addp at 1. cbn [fst snd]. eapply rok_addnz; [exact Hs|exact Hr|exact Hc|].
    intros sp1 H1. eapply rok_conseq; [apply (IH sp1 _ H1); intros; eapply Hl; right; eassumption|].
    intros sp2 H2. eapply pat_set_ext; [exact H2|]. intros i j. cbn [In]. split.
    + intros [[H|[-> ->]]|[y H]]; [left; exact H|right; exists x; left; reflexivity|right; exists y; right; exact H].
    + intros [H|[y [E|H]]]; [tauto|injection E as <- <- <-; tauto|right; exists y; exact H].
Qed.

(** ** Matrices *)
Section Mat.
  Context {K : ofops} (L : ring_laws K).
  Add Ring Kring_fem2 : (rl_ring K L).

  Lemma rok_new_zero_set sp rows cols S : pat_set sp rows cols S ->
    rok (new_zero_sparsematrix (K := K) sp) (fun a => sparse_is a rows cols (fun i j => j < cols /\ S i j) (fun _ _ => f0)).
  Proof.
    intros (f & Hrep & Hf). eapply (rok_new_zero_sparsematrix L sp rows cols f Hrep).
    - intros i e Hi He. apply Hf in He; [|exact Hi]. tauto.
    - intros i Hi. apply Hf. exact Hi.
    - intros a cs E1 E2 Hw Hnd Hst Hdg. split; [exact E1|]. split; [exact E2|]. exists (off f), cs, (fun _ => f0).
      split; [exact Hw|]. split; [exact Hnd|]. split.
      + intros i j Hi. rewrite Hst by exact Hi. destruct (Hf i Hi) as [_ E]. rewrite (E (i, j)). cbn. tauto.
      + intros i j Hi Hj. unfold sden. apply (sum_0 L). intros t Ht. destruct (_ =? _); reflexivity.
  Qed.

  Lemma sparse_is_ext (a : smat K) rows cols (P P' : nat -> nat -> Prop) M M' : sparse_is a rows cols P M ->
    (forall i j, i < rows -> (P i j <-> P' i j)) ->
    (forall i j, i < rows -> j < cols -> M i j = M' i j) -> sparse_is a rows cols P' M'.
  Proof.
    intros (E1 & E2 & rs & cs & vs & Hw & Hnd & Hst & Hd) HP HM. split; [exact E1|]. split; [exact E2|].
    exists rs, cs, vs. split; [exact Hw|]. split; [exact Hnd|]. split.
    - intros i j Hi. rewrite Hst, HP by exact Hi. reflexivity.
    - intros i j Hi Hj. rewrite Hd, HM by assumption. reflexivity.
  Qed.

  (** The sum of all contributions to the position (r,c). *)
  Definition hit (r c : nat) (t : nat * nat * K) : K :=
    if (fst (fst t) =? r) && (snd (fst t) =? c) then snd t else f0.
  Definition val (l : list (nat * nat * K)) (r c : nat) : K := lsum (hit r c) l.

  Definition addm (t : nat * nat * K) (a : smat K) : res (smat K) :=
    addentry a (fst (fst t)) (snd (fst t)) (snd t).

  Lemma rok_addm_list rows cols P (l : list (nat * nat * K)) : forall a M,
    sparse_is a rows cols P M ->
    (forall r c x, In (r, c, x) l -> r < rows /\ c < cols /\ P r c) ->
    rok (rfold addm l a) (fun a' => sparse_is a' rows cols P (fun i j => M i j + val l i j)%F).
  Proof.
    induction l as [|[[r c] x] l IH]; intros a M Ha Hl.
    - cbn. eapply sparse_is_ext; [exact Ha|reflexivity|]. intros i j _ _. unfold val. cbn. ring.
    - cbn [rfold]. apply rok_bind. pose proof (Hl r c x (or_introl eq_refl)) as Hin.
      pose proof (sop_step_ok L rows cols P M _ [] (SAdd r c x) a a _ Ha Hin eq_refl eq_refl) as Hst.
      cbn [sop_step dense_step] in Hst. unfold addm at 1, addentry. cbn [fst snd].
      destruct (addentry_sparsematrix a r c x) as [[v a1]|]; cbn [rbind rok fst snd] in *; [|destruct Hst].
      destruct Hst as [H1 _].
      eapply rok_conseq; [apply (IH a1 _ H1); intros; eapply Hl; right; eassumption|].
      intros a2 H2. eapply sparse_is_ext; [exact H2|reflexivity|]. intros i j _ _. cbv beta.
      unfold val. cbn [lsum]. unfold hit at 2. cbn [fst snd].
      rewrite (Nat.eqb_sym r i), (Nat.eqb_sym c j). destruct ((i =? r) && (j =? c)); ring.
  Qed.

  Lemma lsum_seq {A} (f : A -> K) (l : nat -> list A) n : forall lo,
    lsum f (concat (map l (seq lo n))) = sum n (fun i => lsum f (l (lo + i))).
  Proof.
    induction n as [|n IH]; intros lo; [reflexivity|].
    rewrite seq_S, map_app, concat_app, (lsum_app L), IH. cbn [map concat sum]. rewrite app_nil_r. reflexivity.
  Qed.
End Mat.

Section Tri.
  Context {K : ofops} (L : ring_laws K).
  Add Ring Kring_fem3 : (rl_ring K L).
  Context (dc : tri2dp1 K) (w : mview K) (num : nat -> nat) (Hs : space_is dc w num).

  Lemma val_tri fl xt (el : nat -> nat -> K) u v : (forall k, k < 3 -> at3 xt k < mV w) ->
    u < mV w -> v < mV w -> isfree w u = true -> isfree w v = fl ->
    val (tri_list w num fl xt el) (num u) (num v) =
    sum 3 (fun i => sum 3 (fun j => if (at3 xt i =? u) && (at3 xt j =? v) then el i j else f0)).
  Proof.
    intros Hx Hu Hv Eu Ev. unfold val, tri_list. rewrite (lsum_seq L). apply sum_ext. intros i Hi.
    cbn [plus]. assert (X : lsum (hit (num u) (num v)) (row_list w num fl xt (el i) (num (at3 xt i))) =
      sum 3 (fun j => if Bool.eqb (isfree w (at3 xt j)) fl
        then (if (num (at3 xt i) =? num u) && (num (at3 xt j) =? num v) then el i j else f0) else f0)).
    { unfold row_list. rewrite (lsum_seq L). apply sum_ext. intros j Hj. cbn [plus].
      destruct (Bool.eqb (isfree w (at3 xt j)) fl); cbn [lsum]; [|reflexivity].
      unfold hit. cbn [fst snd]. ring. }
    destruct (Bool.eqb (isfree w (at3 xt i)) true) eqn:Ei.
    - rewrite X. apply sum_ext. intros j Hj. apply Bool.eqb_prop in Ei.
      assert (E1 : (num (at3 xt i) =? num u) = (at3 xt i =? u)).
      { destruct (Nat.eqb_spec (at3 xt i) u) as [->|N]; [apply Nat.eqb_refl|]. apply Nat.eqb_neq. intros E.
        apply N. apply (num_inj dc w num Hs); [apply Hx; lia|exact Hu|congruence|exact E]. }
      rewrite E1. destruct (Nat.eqb_spec (at3 xt j) v) as [->|N].
      + rewrite Ev, Bool.eqb_reflx, Nat.eqb_refl. reflexivity.
      + rewrite andb_false_r. destruct (Bool.eqb (isfree w (at3 xt j)) fl) eqn:Ej; [|reflexivity].
        apply Bool.eqb_prop in Ej. destruct (Nat.eqb_spec (num (at3 xt j)) (num v)) as [E|_];
          [|rewrite andb_false_r; reflexivity].
        exfalso. apply N. apply (num_inj dc w num Hs); [apply Hx; lia|exact Hv|congruence|exact E].
    - cbn [lsum]. symmetry. apply (sum_0 L). intros j Hj.
      destruct (Nat.eqb_spec (at3 xt i) u) as [E|_]; [|reflexivity]. rewrite E, Eu in Ei. discriminate.
  Qed.

  (** The double sum picks one entry. *)
  Lemma pick_tri (xt : nat * nat * nat) (el : nat -> nat -> K) (F : nat -> nat -> K) u v :
    at3 xt 0 <> at3 xt 1 -> at3 xt 0 <> at3 xt 2 -> at3 xt 1 <> at3 xt 2 ->
    (forall i j, i < 3 -> j < 3 -> el i j = F (at3 xt i) (at3 xt j)) ->
    (u <> at3 xt 0 -> u <> at3 xt 1 -> u <> at3 xt 2 -> F u v = f0) ->
    (v <> at3 xt 0 -> v <> at3 xt 1 -> v <> at3 xt 2 -> F u v = f0) ->
    sum 3 (fun i => sum 3 (fun j => if (at3 xt i =? u) && (at3 xt j =? v) then el i j else f0)) = F u v.
  Proof.
    intros N1 N2 N3 HE Z1 Z2. cbn [sum].
    rewrite !HE by lia.
    destruct (Nat.eqb_spec (at3 xt 0) u) as [A0|A0], (Nat.eqb_spec (at3 xt 1) u) as [A1|A1],
      (Nat.eqb_spec (at3 xt 2) u) as [A2|A2]; try congruence; cbn [andb].
    4: { rewrite Z1 by congruence. ring. }
    all: destruct (Nat.eqb_spec (at3 xt 0) v) as [B0|B0], (Nat.eqb_spec (at3 xt 1) v) as [B1|B1],
      (Nat.eqb_spec (at3 xt 2) v) as [B2|B2]; try congruence; try subst u; try subst v;
      try ring; rewrite Z2 by congruence; ring.
  Qed.

  Lemma local_run j v0 v1 v2 : j < mT w -> corners w j v0 v1 v2 ->
    exists a b, local_vertices (p1_t2 dc) j = Ok (a, b, v0) /\ ((a = v1 /\ b = v2) \/ (a = v2 /\ b = v1)).
  Proof.
    intros Hj (N1 & N2 & N3 & HE & J0 & J1 & J2).
    destruct Hs as ((_ & _ & _ & _ & Ae & At & _) & _).
    unfold local_vertices. rewrite (aval_get _ _ _ _ At Hj). cbn [rbind tedge fst snd].
    rewrite (aval_get _ _ _ _ Ae) by (apply HE; lia). cbn [rbind].
    rewrite (aval_get _ _ _ _ Ae) by (apply HE; lia). cbn [rbind].
    destruct J0 as [-> | ->], J1 as [-> | ->]; cbn [fst snd].
    all: repeat match goal with |- context [?x =? ?y] => destruct (Nat.eqb_spec x y); try congruence end; cbn [orb].
    all: eexists _, _; split; [reflexivity|]; auto.
  Qed.
End Tri.
