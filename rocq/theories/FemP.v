(** * Finite elements: the numbering, and loops as lists of contributions *)
From Coq Require Import Arith Lia List Bool Ring.
From Verif Require Import Fld Ord Prog Arr HmSpec Sparse SparseP PropSparse Tri2d Tri2dSpec Tri2dP Tri2dP3 Fem FemSpec.
Import ListNotations.
Local Open Scope nat_scope.

(** ** The numbering *)
Section Number.
  Context (b : nat -> bool).
  Definition cnt (f : bool) (n : nat) : nat := nsum n (fun i => if Bool.eqb (b i) f then 1 else 0).
  Definition rank (i : nat) : nat := cnt (b i) i.

  Lemma cnt_S f n : cnt f (S n) = cnt f n + (if Bool.eqb (b n) f then 1 else 0).
  Proof. reflexivity. Qed.
  Lemma cnt_le f i j : i <= j -> cnt f i <= cnt f j.
  Proof. induction 1; [lia|]. rewrite cnt_S. lia. Qed.
  Lemma cnt_lt f i j : i < j -> b i = f -> cnt f i < cnt f j.
  Proof.
    intros H E. pose proof (cnt_le f (S i) j H) as P. rewrite cnt_S, E, Bool.eqb_reflx in P. lia.
  Qed.
  Lemma cnt_surj f n k : k < cnt f n -> exists i, i < n /\ b i = f /\ cnt f i = k.
  Proof.
    induction n as [|n IH]; [cbn; lia|]. rewrite cnt_S. intros H.
    destruct (Nat.lt_ge_cases k (cnt f n)) as [H1|H1].
    - destruct (IH H1) as (i & A & B & C). exists i. split; [lia|auto].
    - destruct (Bool.eqb (b n) f) eqn:E; [|lia]. apply Bool.eqb_prop in E.
      exists n. split; [lia|]. split; [exact E|]. lia.
  Qed.
  Lemma rank_numbering f V (P : nat -> Prop) : (forall i, P i <-> b i = f) -> numbering P V (cnt f V) rank.
  Proof.
    intros HP. split; [|split].
    - intros i Hi Pi. apply HP in Pi. unfold rank. rewrite Pi. apply cnt_lt; assumption.
    - intros i j Hij Hj Pi Pj. apply HP in Pi, Pj. unfold rank. rewrite Pi, Pj. apply cnt_lt; assumption.
    - intros k Hk. destruct (cnt_surj f V k Hk) as (i & A & B & C). exists i. split; [exact A|].
      split; [apply HP; exact B|]. unfold rank. rewrite B. exact C.
  Qed.
End Number.

Lemma numbering_inj P V n num i j : numbering P V n num -> i < V -> j < V -> P i -> P j -> num i = num j -> i = j.
Proof.
  intros (_ & H & _) Hi Hj Pi Pj E. destruct (Nat.lt_trichotomy i j) as [L|[L|L]]; [|exact L|].
  - specialize (H i j L Hj Pi Pj). lia.
  - specialize (H j i L Hi Pj Pi). lia.
Qed.

Section New.
  Context {K : ofops}.
  Lemma run_new (m : tri2d K) w : mesh_is m w ->
    exists dc, new_tri2dp1 m = Ok dc /\ p1_t2 dc = m /\ space_is dc w (rank (fun i => mxb w i =? 0)).
  Proof.
    intros Hm. pose proof Hm as (EV & _ & _ & _ & _ & _ & Axb & _).
    apply (rok_inv _ (fun dc => p1_t2 dc = m /\ space_is dc w (rank (fun i => mxb w i =? 0)))).
    unfold new_tri2dp1. set (b := fun i => mxb w i =? 0). rewrite EV.
    apply rok_bind. apply (rok_for (fun i a => aprt a (mV w) (fun k => k < i) b)).
    { apply anew_prt. intros; lia. }
    { intros i a Hi Ha. apply rok_bind. rewrite (aval_get _ _ _ _ Axb) by lia. cbn [rok].
      eapply rok_aset_next; [exact Ha|lia|reflexivity|]. intros a' Ha'. exact Ha'. }
    change (0 + mV w) with (mV w). intros isd Hd. apply aprt_aval in Hd; [|auto].
    apply rok_bind.
    apply (rok_for (fun i '(idx, nd, nf) => aprt idx (mV w) (fun k => k < i) (rank b) /\
      nd = cnt b true i /\ nf = cnt b false i)).
    { split; [apply anew_prt; intros; lia|]. auto. }
    { intros i [[idx nd] nf] Hi (Hx & -> & ->). apply rok_bind. rewrite (aval_get _ _ _ _ Hd) by lia. cbn [rok].
      destruct (b i) eqn:E; apply rok_bind.
      - eapply rok_aset_next; [exact Hx|lia|unfold rank; rewrite E; reflexivity|]. intros a' Ha'. cbn [rok].
        split; [exact Ha'|]. rewrite !cnt_S, E. cbn [Bool.eqb]. lia.
      - eapply rok_aset_next; [exact Hx|lia|unfold rank; rewrite E; reflexivity|]. intros a' Ha'. cbn [rok].
        split; [exact Ha'|]. rewrite !cnt_S, E. cbn [Bool.eqb]. lia. }
    change (0 + mV w) with (mV w). intros [[idx nd] nf] (Hx & -> & ->). apply aprt_aval in Hx; [|auto].
    cbn [rok]. split; [reflexivity|]. split; [exact Hm|]. split; [exact Hd|]. split; [exact Hx|]. cbn [p1_ndof p1_nfix]. split.
    - apply rank_numbering. intros i. unfold free, b. rewrite Nat.eqb_eq. reflexivity.
    - apply rank_numbering. intros i. unfold free, b. rewrite Nat.eqb_neq. reflexivity.
  Qed.
End New.

(** ** Loops as folds over lists *)
Lemma rfor_list {A S} (g : A -> S -> res S) (l : nat -> list A) (body : nat -> S -> res S) n : forall lo s,
  (forall i s, lo <= i < lo + n -> body i s = rfold g (l i) s) ->
  rfor lo n body s = rfold g (concat (map l (seq lo n))) s.
Proof.
  induction n as [|n IH]; intros lo s H; cbn [rfor seq map concat]; [reflexivity|].
  rewrite H by lia. rewrite rfold_app. destruct (rfold g (l lo) s); cbn [rbind]; [|reflexivity].
  apply IH. intros i s' Hi. apply H. lia.
Qed.

Section Lists.
  Context {K : ofops} (dc : tri2dp1 K) (w : mview K) (num : nat -> nat) (Hs : space_is dc w num).

  Definition isfree (v : nat) : bool := mxb w v =? 0.

  Lemma when_list {A S} (g : A -> S -> res S) (l : nat -> list A) fl v body s : v < mV w ->
    (Bool.eqb (isfree v) fl = true -> body (num v) s = rfold g (l (num v)) s) ->
    when_dof dc fl v body s = rfold g (if Bool.eqb (isfree v) fl then l (num v) else []) s.
  Proof.
    intros Hv H. destruct Hs as (_ & Hd & Hi & _). unfold when_dof.
    rewrite (aval_get _ _ _ _ Hd Hv). cbn [rbind]. fold (isfree v).
    destruct (Bool.eqb (isfree v) fl); [|reflexivity].
    rewrite (aval_get _ _ _ _ Hi Hv). cbn [rbind]. apply H. reflexivity.
  Qed.

  Lemma num_free v : v < mV w -> isfree v = true -> num v < p1_ndof dc.
  Proof.
    intros Hv E. destruct Hs as (_ & _ & _ & (H & _) & _). apply H; [exact Hv|]. apply Nat.eqb_eq. exact E.
  Qed.
  Lemma num_fix v : v < mV w -> isfree v = false -> num v < p1_nfix dc.
  Proof.
    intros Hv E. destruct Hs as (_ & _ & _ & _ & (H & _)). apply H; [exact Hv|]. apply Nat.eqb_neq. exact E.
  Qed.
  Lemma num_inj u v : u < mV w -> v < mV w -> isfree u = isfree v -> num u = num v -> u = v.
  Proof.
    intros Hu Hv E. destruct Hs as (_ & _ & _ & N1 & N2). destruct (isfree v) eqn:Ev; unfold isfree in *.
    - apply (numbering_inj _ _ _ _ _ _ N1 Hu Hv); apply Nat.eqb_eq; assumption.
    - apply (numbering_inj _ _ _ _ _ _ N2 Hu Hv); apply Nat.eqb_neq; assumption.
  Qed.
  Definition ncols (fl : bool) : nat := if fl then p1_ndof dc else p1_nfix dc.
  Lemma num_cols fl v : v < mV w -> Bool.eqb (isfree v) fl = true -> num v < ncols fl.
  Proof.
    intros Hv E. apply Bool.eqb_prop in E. destruct fl; cbn; [apply num_free|apply num_fix]; assumption.
  Qed.

  (** The contributions of a triangle with the vertices [xt] and the element
      matrix [el]; [fl]: columns for free or for fixed vertices. *)
  Definition row_list (fl : bool) (xt : nat * nat * nat) (el : nat -> K) (ii : nat) : list (nat * nat * K) :=
    concat (map (fun j => if Bool.eqb (isfree (at3 xt j)) fl then [(ii, num (at3 xt j), el j)] else []) (seq 0 3)).
  Definition tri_list (fl : bool) (xt : nat * nat * nat) (el : nat -> nat -> K) : list (nat * nat * K) :=
    concat (map (fun i => if Bool.eqb (isfree (at3 xt i)) true
      then row_list fl xt (el i) (num (at3 xt i)) else []) (seq 0 3)).

  Lemma tri_run {S} (add : nat * nat * K -> S -> res S) fl xt el s
      (body : nat -> nat -> nat -> nat -> S -> res S) (pre : nat -> bool) :
    (forall k, k < 3 -> at3 xt k < mV w) ->
    (forall ii, ii < p1_ndof dc -> pre ii = true) ->
    (forall i j ii jj s, i < 3 -> j < 3 -> ii < p1_ndof dc -> jj < ncols fl ->
       body i j ii jj s = add (ii, jj, el i j) s) ->
    rfor 0 3 (fun i s => when_dof dc true (at3 xt i) (fun ii s =>
      do* rassert (pre ii) in
      rfor 0 3 (fun j s => when_dof dc fl (at3 xt j) (fun jj s => body i j ii jj s) s) s) s) s =
    rfold add (tri_list fl xt el) s.
  Proof.
    intros Hx Hpre Hb. unfold tri_list. apply rfor_list. intros i s1 Hi.
    apply when_list with (l := fun ii => row_list fl xt (el i) ii); [apply Hx; lia|].
    intros Ei. apply Bool.eqb_prop in Ei. pose proof (num_free _ (Hx i ltac:(lia)) Ei) as Ni.
    rewrite Hpre by exact Ni. cbn [rassert rbind]. unfold row_list. apply rfor_list. intros j s2 Hj.
    apply when_list with (l := fun jj => [(num (at3 xt i), jj, el i j)]); [apply Hx; lia|].
    intros Ej. pose proof (num_cols fl _ (Hx j ltac:(lia)) Ej) as Nj.
    rewrite Hb by (try exact Ni; try exact Nj; lia). cbn [rfold].
    destruct (add _ s2); reflexivity.
  Qed.

  Lemma in_tri fl xt el r c x : In (r, c, x) (tri_list fl xt el) <->
    exists i j, i < 3 /\ j < 3 /\ isfree (at3 xt i) = true /\ Bool.eqb (isfree (at3 xt j)) fl = true /\
      r = num (at3 xt i) /\ c = num (at3 xt j) /\ x = el i j.
  Proof.
    unfold tri_list, row_list. rewrite in_concat. split.
    - intros (l & Hl & H). apply in_map_iff in Hl as (i & <- & Hi). apply in_seq in Hi.
      destruct (Bool.eqb (isfree (at3 xt i)) true) eqn:Ei; [|destruct H]. apply Bool.eqb_prop in Ei.
      apply in_concat in H as (l & Hl & H). apply in_map_iff in Hl as (j & <- & Hj). apply in_seq in Hj.
      destruct (Bool.eqb (isfree (at3 xt j)) fl) eqn:Ej; [|destruct H].
      destruct H as [E|[]]. injection E as <- <- <-. exists i, j. split; [lia|]. split; [lia|]. auto.
    - intros (i & j & Hi & Hj & Ei & Ej & -> & -> & ->). eexists. split.
      + apply in_map_iff. exists i. split; [reflexivity|]. apply in_seq. lia.
      + rewrite Ei. cbn [Bool.eqb]. apply in_concat. eexists. split.
        * apply in_map_iff. exists j. split; [reflexivity|]. apply in_seq. lia.
        * rewrite Ej. left. reflexivity.
  Qed.
End Lists.
