(** * Properties C01-C03 and C42: sparse patterns and sparse matrices *)
From Coq Require Import Arith Lia List Bool ZArith Ring.
From Verif Require Import Fld Inst Prog View Spec Loop Arr Sparse SparseP Norm NormP.
Import ListNotations.

(** ** C01: a pattern is the set of pairs added since the last clear *)

Inductive patop := PAdd (r c : nat) | PClear.

Definition pat_step (op : patop) (sp : spat) : res spat :=
  match op with
  | PAdd r c => addnz_sparsepattern sp r c
  | PClear => clear_sparsepattern sp
  end.

(** A history of calls on a fresh pattern. *)
Definition pat_run (rows cols : nat) (ops : list patop) : res spat :=
  let* sp := new_sparsepattern rows cols in rfold pat_step ops sp.

(** Specification: was (r,c) added after the last clear?  The history is read
    from its end. *)
Fixpoint live_rev (h : list patop) (r c : nat) : Prop :=
  match h with
  | [] => False
  | PClear :: _ => False
  | PAdd r' c' :: h' => (r = r' /\ c = c') \/ live_rev h' r c
  end.
Definition live (ops : list patop) := live_rev (rev ops).

Definition op_in_range (rows cols : nat) (op : patop) : Prop :=
  match op with PAdd r c => r < rows /\ c < cols | PClear => True end.

Lemma rfold_app {A S} (body : A -> S -> res S) l1 l2 s :
  rfold body (l1 ++ l2) s = rbind (rfold body l1 s) (rfold body l2).
Proof.
  revert s. induction l1 as [|x l1 IH]; intros s; cbn; [reflexivity|].
  destruct (body x s); cbn; [apply IH|reflexivity].
Qed.

Lemma pat_run_rep rows cols ops : 0 < rows -> 0 < cols ->
  Forall (op_in_range rows cols) ops ->
  exists sp f, pat_run rows cols ops = Ok sp /\ pat_rep sp rows cols f /\
    forall i, i < rows -> NoDup (f i) /\
      forall e, In e (f i) <-> fst e = i /\ snd e < cols /\ live ops i (snd e).
Proof.
  intros Hr Hc. unfold pat_run.
  destruct (rok_inv (new_sparsepattern rows cols) (fun sp => pat_rep sp rows cols (fun _ => [])))
    as [sp0 [E0 H0]].
  { apply rok_new_sparsepattern; auto. }
  rewrite E0. cbn [rbind].
  induction ops as [|op ops IH] using rev_ind; intros Hin.
  - exists sp0, (fun _ => []). split; [reflexivity|]. split; [exact H0|].
    intros i Hi. split; [constructor|]. intros e. unfold live. cbn. tauto.
  - apply Forall_app in Hin as [Hin1 Hin2]. inversion Hin2 as [|? ? Hop _]; subst.
    destruct (IH Hin1) as [sp [f [E [Hrep Hf]]]]. rewrite rfold_app, E. cbn [rbind rfold].
    destruct op as [r c|]; cbn [pat_step].
    + destruct Hop as [Hr' Hc'].
      edestruct (rok_inv (addnz_sparsepattern sp r c)) as [sp' [E' H']].
      { eapply rok_addnz_sparsepattern; [exact Hrep|exact Hr'|exact Hc'|]. intros sp' H'. exact H'. }
      rewrite E'. cbn [rbind]. eexists sp', _. split; [reflexivity|]. split; [exact H'|].
      intros i Hi. unfold live. rewrite rev_app_distr. cbn [rev app live_rev]. fold (live ops).
      destruct (Hf i Hi) as [Hnd Hiff].
      destruct (find_entry (f r) c) eqn:Ef; cbn [negb].
      * rewrite andb_false_r. split; [exact Hnd|]. intros e. rewrite Hiff.
        split; [intros [? [? ?]]; auto|]. intros [Hfst [Hsnd [[Ei Ec]|Hl]]]; [|auto].
        apply find_entry_spec in Ef. apply in_map_iff in Ef as [e' [Ee' He']].
        destruct (Hf r Hr') as [_ Hiff']. apply Hiff' in He' as [He1 [He2 He3]].
        rewrite Ee' in He3. rewrite Ec, Ei in *. auto.
      * rewrite andb_true_r. destruct (Nat.eqb_spec i r) as [->|Hne].
        -- split.
           ++ constructor; [|exact Hnd]. intros Hin'.
              assert (Ht : find_entry (f r) c = true).
              { apply find_entry_spec. apply in_map_iff. exists (r, c). auto. }
              congruence.
           ++ intros e. cbn [In]. rewrite Hiff. destruct e as [e1 e2]; cbn. split.
              ** intros [[= <- <-]|[? [? ?]]]; auto.
              ** intros [-> [H2 [[_ ->]|H3]]]; auto.
        -- split; [exact Hnd|]. intros e. rewrite Hiff. split; [intros [? [? ?]]; auto|].
           intros [? [? [[? _]|?]]]; [congruence|auto].
    + edestruct (rok_inv (clear_sparsepattern sp)) as [sp' [E' H']].
      { eapply rok_clear_sparsepattern; [exact Hrep|]. intros sp' H'. exact H'. }
      rewrite E'. cbn [rbind]. eexists sp', _. split; [reflexivity|]. split; [exact H'|].
      intros i Hi. unfold live. rewrite rev_app_distr. cbn [rev app live_rev].
      split; [constructor|]. intros e. cbn [In]. tauto.
Qed.

(** For every history of calls with positions in range the pattern exists, keeps
    its shape, and row [i] lists exactly the live pairs of that row, each once. *)
Theorem C01_pattern_is_set : forall rows cols ops, 0 < rows -> 0 < cols ->
  Forall (op_in_range rows cols) ops ->
  exists sp, pat_run rows cols ops = Ok sp /\ prows sp = rows /\ pcols sp = cols /\
    forall i, i < rows -> exists l, aget (prow sp) i = Ok l /\ NoDup l /\
      forall r c, In (r, c) l <-> r = i /\ c < cols /\ live ops i c.
Proof.
  intros rows cols ops Hr Hc Hin.
  destruct (pat_run_rep rows cols ops Hr Hc Hin) as [sp [f [E [[E1 [E2 Hv]] Hf]]]].
  exists sp. split; [exact E|]. split; [exact E1|]. split; [exact E2|].
  intros i Hi. exists (f i). split; [apply (aval_get _ _ _ _ Hv Hi)|].
  destruct (Hf i Hi) as [Hnd Hiff]. split; [exact Hnd|].
  intros r c. rewrite (Hiff (r, c)). cbn. tauto.
Qed.

(** A position out of range is rejected by an assertion, whatever the pattern. *)
Theorem C01_addnz_out_of_range : forall sp r c, prows sp <= r \/ pcols sp <= c ->
  addnz_sparsepattern sp r c = Err EAssert.
Proof.
  intros sp r c H. unfold addnz_sparsepattern.
  destruct (Nat.ltb_spec r (prows sp)); cbn; [|reflexivity].
  destruct (Nat.ltb_spec c (pcols sp)); cbn; [lia|reflexivity].
Qed.

Example C01_hyps : Forall (op_in_range 3 4)
  [PAdd 0 1; PAdd 2 3; PClear; PAdd 1 1; PAdd 1 3; PAdd 1 1; PAdd 2 0].
Proof. repeat constructor. Qed.
Example C01_runs : match pat_run 3 4 [PAdd 0 1; PAdd 2 3; PClear; PAdd 1 1; PAdd 1 3; PAdd 1 1; PAdd 2 0] with
  | Ok sp => prow sp | Err _ => [] end = [Some []; Some [(1, 3); (1, 1)]; Some [(2, 0)]].
Proof. reflexivity. Qed.

(** ** C02: the matrix represented by the compressed rows *)
Section C02.
Context {K : fops}.

(** The matrix [a] is stored in compressed rows without duplicates, stores
    exactly the positions in [P], and has the entries [M]. *)
Definition sparse_is (a : smat K) (rows cols : nat) (P : nat -> nat -> Prop) (M : nat -> nat -> K) : Prop :=
  srows a = rows /\ scols a = cols /\
  exists rs cs vs, swf a rs cs vs /\ snodup rows rs cs /\
    (forall i j, i < rows -> stored rs cs i j <-> P i j) /\
    (forall i j, i < rows -> j < cols -> sden rs cs vs i j = M i j).

Inductive sop := SAdd (r c : nat) (x : K) | SSet (r c : nat) (x : K) | SClear | SSort.

(** The operation on the data structure; [addentry] also returns a value. *)
Definition sop_step (op : sop) (s : smat K * list K) : res (smat K * list K) :=
  let (a, out) := s in
  match op with
  | SAdd r c x => let* (v, a') := addentry_sparsematrix a r c x in Ok (a', v :: out)
  | SSet r c x => let* a' := setentry_sparsematrix a r c x in Ok (a', out)
  | SClear => let* a' := clear_sparsematrix a in Ok (a', out)
  | SSort => let* a' := sort_sparsematrix a in Ok (a', out)
  end.

(** The operation on a dense matrix. *)
Definition dense_step (op : sop) (s : (nat -> nat -> K) * list K) : (nat -> nat -> K) * list K :=
  let (M, out) := s in
  match op with
  | SAdd r c x => (fun i j => if (i =? r) && (j =? c) then fadd (M i j) x else M i j,
                   fadd (M r c) x :: out)
  | SSet r c x => (fun i j => if (i =? r) && (j =? c) then x else M i j, out)
  | SClear => (fun _ _ => f0, out)
  | SSort => (M, out)
  end.
Definition dense_run (ops : list sop) s := fold_left (fun s op => dense_step op s) ops s.

(** The operation addresses a stored position only. *)
Definition sop_ok (rows cols : nat) (P : nat -> nat -> Prop) (op : sop) : Prop :=
  match op with
  | SAdd r c _ | SSet r c _ => r < rows /\ c < cols /\ P r c
  | _ => True
  end.

Context (L : ring_laws K).
Add Ring Kring : (rl_ring K L).

Lemma sop_step_ok rows cols P M M2 out op a a2 out2 :
  sparse_is a rows cols P M -> sop_ok rows cols P op ->
  dense_step op (M, out) = (M2, out2) -> a2 = a ->
  rok (sop_step op (a2, out)) (fun s => sparse_is (fst s) rows cols P M2 /\ snd s = out2).
Proof.
  intros [E1 [E2 [rs [cs [vs [Hw [Hnd [Hst Hd]]]]]]]] Hop Hden ->.
  destruct op as [r c x|r c x| |]; cbn [sop_ok sop_step dense_step] in *; injection Hden as <- <-.
  - destruct Hop as [Hr [Hc Hp]]. apply rok_bind.
    eapply rok_addentry_sparsematrix; [exact Hw|lia|lia|apply Hst; assumption|].
    intros k a' Hk Ek E1' E2' Hw'. cbn.
    assert (Ev : vs k = M r c).
    { rewrite <- Hd, <- Ek by assumption. symmetry. eapply (sden_stored L); eauto. }
    split; [|rewrite Ev; reflexivity].
    split; [lia|]. split; [lia|]. exists rs, cs, (fun t => if t =? k then (vs k + x)%F else vs t).
    split; [exact Hw'|]. split; [exact Hnd|]. split; [exact Hst|].
    intros i j Hi Hj. rewrite (sden_fupd L a rs cs vs r k _ i j Hw) by (auto; lia).
    rewrite Ek, Hd by assumption. bsplit; try reflexivity. ring.
  - destruct Hop as [Hr [Hc Hp]]. apply rok_bind.
    eapply rok_setentry_sparsematrix; [exact Hw|lia|lia|apply Hst; assumption|].
    intros k a' Hk Ek E1' E2' Hw'. cbn.
    assert (Ev : vs k = M r c).
    { rewrite <- Hd, <- Ek by assumption. symmetry. eapply (sden_stored L); eauto. }
    split; [|reflexivity].
    split; [lia|]. split; [lia|]. exists rs, cs, (fun t => if t =? k then x else vs t).
    split; [exact Hw'|]. split; [exact Hnd|]. split; [exact Hst|].
    intros i j Hi Hj. rewrite (sden_fupd L a rs cs vs r k _ i j Hw) by (auto; lia).
    rewrite Ek, Hd by assumption. bsplit; try reflexivity. subst. rewrite Ev. ring.
  - apply rok_bind. eapply rok_clear_sparsematrix; [exact Hw|].
    intros a' E1' E2' Hw'. cbn. split; [|reflexivity]. split; [lia|]. split; [lia|].
    exists rs, cs, (fun _ => f0). split; [exact Hw'|]. split; [exact Hnd|]. split; [exact Hst|].
    intros i j Hi Hj. unfold sden. apply (sum_0 L). intros. bsplit; reflexivity.
  - apply rok_bind. eapply (rok_sort_sparsematrix L); [exact Hw|].
    intros a' cs' vs' E1' E2' _ _ Hw' Hd' Hst' Hnd' _. cbn. split; [|reflexivity].
    split; [lia|]. split; [lia|]. exists rs, cs', vs'. split; [exact Hw'|].
    split; [rewrite E1 in *; auto|]. rewrite E1 in *. split.
    + intros i j Hi. rewrite Hst' by exact Hi. auto.
    + intros i j Hi Hj. rewrite Hd' by exact Hi. auto.
Qed.

Lemma dense_run_app ops1 ops2 s : dense_run (ops1 ++ ops2) s = dense_run ops2 (dense_run ops1 s).
Proof. apply fold_left_app. Qed.

Lemma sops_run_ok rows cols P ops : Forall (sop_ok rows cols P) ops -> forall M out a,
  sparse_is a rows cols P M ->
  exists a', rfold sop_step ops (a, out) = Ok (a', snd (dense_run ops (M, out))) /\
    sparse_is a' rows cols P (fst (dense_run ops (M, out))).
Proof.
  induction 1 as [|op ops Hop _ IH]; intros M out a Ha.
  - exists a. split; [reflexivity|exact Ha].
  - destruct (dense_step op (M, out)) as [M2 out2] eqn:Ed.
    destruct (rok_inv _ _ (sop_step_ok rows cols P M M2 out op a a out2 Ha Hop Ed eq_refl))
      as [[a1 o1] [E [H1 H2]]].
    cbn in H1, H2. subst o1.
    destruct (IH M2 out2 a1 H1) as [a' [E' H']].
    exists a'. cbn [rfold]. rewrite E. cbn [rbind].
    unfold dense_run in *. cbn [fold_left]. rewrite Ed. split; [exact E'|exact H'].
Qed.

Lemma new_zero_is rows cols pops sp : 0 < rows -> 0 < cols ->
  Forall (op_in_range rows cols) pops -> pat_run rows cols pops = Ok sp ->
  rok (new_zero_sparsematrix sp) (fun a => sparse_is a rows cols
     (fun i j => j < cols /\ live pops i j) (fun _ _ => f0) /\
     (forall i, i < rows -> i < cols -> live pops i i ->
        exists s, aget (srow a) i = Ok s /\ aget (scol a) s = Ok i)).
Proof.
  intros Hr Hc Hin E.
  destruct (pat_run_rep rows cols pops Hr Hc Hin) as [sp' [f [E' [Hrep Hf]]]].
  rewrite E in E'. injection E' as <-.
  eapply (rok_new_zero_sparsematrix L sp rows cols f Hrep).
  - intros i e Hi He. apply Hf in He; [|exact Hi]. tauto.
  - intros i Hi. apply Hf. exact Hi.
  - intros a cs E1 E2 Hw Hnd Hst Hdg. 
    assert (Hst' : forall i j, i < rows -> stored (off f) cs i j <-> j < cols /\ live pops i j).
    { intros i j Hi. rewrite Hst by exact Hi. destruct (Hf i Hi) as [_ Hiff].
      rewrite (Hiff (i, j)). cbn. tauto. }
    split.
    + split; [exact E1|]. split; [exact E2|]. exists (off f), cs, (fun _ => f0).
      split; [exact Hw|]. split; [exact Hnd|]. split; [exact Hst'|].
      intros i j Hi Hj. unfold sden. apply (sum_0 L). intros. bsplit; reflexivity.
    + intros i Hi Hic Hl. exists (off f i).
      assert (Hs : stored (off f) cs i i) by (apply Hst'; auto).
      destruct (Hdg i Hi Hs) as [Hlt Ec].
      split; [apply (aval_get _ _ _ _ (sw_rs _ _ _ _ Hw)); lia|].
      rewrite <- Ec at 2. apply (aval_get _ _ _ _ (sw_cs _ _ _ _ Hw)).
      pose proof (rs_nz _ _ _ _ (S i) Hw ltac:(lia)). lia.
Qed.

(** A matrix built from any pattern history behaves under any history of
    add / set / clear / sort calls on stored positions exactly like the dense
    matrix (including the values returned by [addentry]), and the set of stored
    positions never changes. *)
Theorem C02_sparse_history : forall rows cols pops sp ops, 0 < rows -> 0 < cols ->
  Forall (op_in_range rows cols) pops -> pat_run rows cols pops = Ok sp ->
  Forall (sop_ok rows cols (fun i j => j < cols /\ live pops i j)) ops ->
  exists a a' out M, new_zero_sparsematrix sp = Ok a /\
    rfold sop_step ops (a, []) = Ok (a', out) /\
    dense_run ops (fun _ _ => f0, []) = (M, out) /\
    sparse_is a' rows cols (fun i j => j < cols /\ live pops i j) M.
Proof.
  intros rows cols pops sp ops Hr Hc Hin E Hops.
  destruct (rok_inv _ _ (new_zero_is rows cols pops sp Hr Hc Hin E)) as [a [Ea [Ha _]]].
  destruct (sops_run_ok rows cols _ ops Hops (fun _ _ => f0) [] a Ha) as [a' [E' H']].
  destruct (dense_run ops (fun _ _ => f0, [])) as [M out] eqn:Ed.
  exists a, a', out, M. cbn in *. auto.
Qed.

(** A fresh matrix is zero, stores exactly the pattern, and each stored diagonal
    position comes first in its row. *)
Theorem C02_new_zero : forall rows cols pops sp, 0 < rows -> 0 < cols ->
  Forall (op_in_range rows cols) pops -> pat_run rows cols pops = Ok sp ->
  exists a, new_zero_sparsematrix sp = Ok a /\
    sparse_is a rows cols (fun i j => j < cols /\ live pops i j) (fun _ _ => f0) /\
    (forall i, i < rows -> i < cols -> live pops i i ->
        exists s, aget (srow a) i = Ok s /\ aget (scol a) s = Ok i).
Proof.
  intros rows cols pops sp Hr Hc Hin E.
  destruct (rok_inv _ _ (new_zero_is rows cols pops sp Hr Hc Hin E)) as [a [Ea Ha]].
  exists a. auto.
Qed.

(** Positions that are not stored are rejected by an assertion. *)
Theorem C02_unstored_rejected : forall a rows cols P M r c (x : K),
  sparse_is a rows cols P M -> r < rows -> ~ P r c ->
  addentry_sparsematrix a r c x = Err EAssert /\ setentry_sparsematrix a r c x = Err EAssert.
Proof.
  intros a rows cols P M r c x [E1 [E2 [rs [cs [vs [Hw [Hnd [Hst Hd]]]]]]]] Hr Hp.
  assert (Hn : ~ stored rs cs r c) by (rewrite Hst by exact Hr; exact Hp).
  split; [eapply addentry_unstored|eapply setentry_unstored]; eauto; lia.
Qed.

(** Sorting keeps the matrix and its positions, and puts the diagonal first. *)
Theorem C02_sort : forall a rows cols P M, sparse_is a rows cols P M ->
  exists a', sort_sparsematrix a = Ok a' /\ sparse_is a' rows cols P M /\
    (forall i, i < rows -> P i i -> exists s, aget (srow a') i = Ok s /\ aget (scol a') s = Ok i).
Proof.
  intros a rows cols P M [E1 [E2 [rs [cs [vs [Hw [Hnd [Hst Hd]]]]]]]].
  edestruct (rok_inv (sort_sparsematrix a)) as [a' [E' H']]; [|exists a'; split; [exact E'|exact H']].
  eapply (rok_sort_sparsematrix L); [exact Hw|].
  intros a' cs' vs' E1' E2' E3 E4 Hw' Hd' Hst' Hnd' Hdg. rewrite E1 in *.
  split.
  - split; [lia|]. split; [lia|]. exists rs, cs', vs'. split; [exact Hw'|].
    split; [auto|]. split.
    + intros i j Hi. rewrite Hst' by exact Hi. auto.
    + intros i j Hi Hj. rewrite Hd' by exact Hi. auto.
  - intros i Hi Hp. exists (rs i).
    destruct (Hdg i Hi (proj2 (Hst i i Hi) Hp)) as [Hlt Ec].
    split; [apply (aval_get _ _ _ _ (sw_rs _ _ _ _ Hw')); lia|].
    rewrite <- Ec at 2. apply (aval_get _ _ _ _ (sw_cs _ _ _ _ Hw')).
    pose proof (rs_nz _ _ _ _ (S i) Hw' ltac:(lia)). lia.
Qed.

(** new_identity_sparsematrix is the identity, also for rectangular shapes. *)
Theorem C02_new_identity : forall rows cols, exists a : smat K,
  new_identity_sparsematrix rows cols = Ok a /\
  sparse_is a rows cols (fun i j => i = j /\ i < cols) (fun i j => if (i =? j) && (i <? cols) then f1 else f0).
Proof.
  intros rows cols.
  edestruct (rok_inv (@new_identity_sparsematrix K rows cols)) as [a [E H]];
    [|exists a; split; [exact E|exact H]].
  apply rok_new_identity_sparsematrix. intros a E1 E2 Hw.
  split; [exact E1|]. split; [exact E2|]. eexists _, _, _. split; [exact Hw|].
  assert (Hst : forall i j, i < rows ->
     stored (fun i => Nat.min i (Nat.min rows cols)) (fun k => k) i j <-> i = j /\ i < cols).
  { intros i j Hi. unfold stored. split.
    - intros [k [Hk <-]]. lia.
    - intros [-> Hc]. exists j. lia. }
  split; [|split].
  - intros i k l Hi Hk Hl E'. exact E'.
  - exact Hst.
  - intros i j Hi Hj. destruct (Nat.eqb_spec i j) as [->|Hne]; cbn [andb].
    + destruct (Nat.ltb_spec j cols).
      * unfold sden. replace (Nat.min (S j) (Nat.min rows cols) - Nat.min j (Nat.min rows cols)) with 1 by lia.
        cbn [sum]. rewrite Nat.add_0_r. replace (Nat.min j (Nat.min rows cols)) with j by lia.
        rewrite Nat.eqb_refl. ring.
      * apply (sden_nostored L). rewrite Hst by exact Hi. lia.
    + apply (sden_nostored L). rewrite Hst by exact Hi. lia.
Qed.
End C02.

(** The example pattern has an empty row, a row with the diagonal last, and a
    row without diagonal. *)
Definition xpops : list patop := [PAdd 1 1; PAdd 1 0; PAdd 1 3; PAdd 2 0; PAdd 3 3; PAdd 3 2].
Definition xsops : list (@sop Zf) :=
  [SSet (K:=Zf) 1 1 5%Z; SAdd (K:=Zf) 1 3 7%Z; SSort; SAdd (K:=Zf) 1 1 2%Z;
   SSet (K:=Zf) 3 2 (-1)%Z; SAdd (K:=Zf) 2 0 4%Z].
Example C02_hyps : Forall (op_in_range 4 4) xpops /\
  Forall (sop_ok 4 4 (fun i j => j < 4 /\ live xpops i j)) xsops.
Proof.
  split; [repeat constructor|]. unfold xsops, live, xpops; cbn.
  repeat apply Forall_cons; try apply Forall_nil; cbn; repeat split; try lia;
    repeat (first [left; split; reflexivity | right]).
Qed.
Example C02_runs :
  match (let* sp := pat_run 4 4 xpops in let* a := new_zero_sparsematrix sp in
         rfold (@sop_step Zf) xsops (a, [])) with
  | Ok (a, out) => (srow a, scol a, scoeff a, out)
  | Err _ => ([], [], [], []) end
  = (aof [0; 0; 3; 4; 6], aof [1; 0; 3; 0; 3; 2], aof [7; 0; 7; 4; 0; -1]%Z, [4; 7; 7]%Z).
Proof. reflexivity. Qed.

(** ** C03: products and conversion *)
Section C03.
Context {K : fops} (L : ring_laws K).
Implicit Types (m : mem K) (x y : vec) (a : smat K).

Theorem C03_addeval : forall alpha a rows cols P M x y f h m,
  sparse_is a rows cols P M -> vval m x f -> vval m y h -> vdim y = rows -> vdim x = cols ->
  disj (inv x) (inv y) ->
  ends (addeval_sparsematrix_avector alpha a x y) m (fun _ m' =>
    vval m' y (fun i => h i + alpha * mvec cols M f i)%F /\ keeps (inv y) m m').
Proof.
  intros alpha a rows cols P M x y f h m [E1 [E2 [rs [cs [vs [Hw [Hnd [Hst Hd]]]]]]]] Hx Hy Hr Hc Hdis.
  apply wp_ends. eapply (wp_addeval_sparsematrix_avector L); eauto; try lia; unfold rdok, wrok; auto.
  intros m' Hv Hk. split; [|exact Hk]. eapply vval_ext; [exact Hv|].
  intros i Hi; cbv beta. f_equal. f_equal. unfold mvec. rewrite E2. apply sum_ext.
  intros j Hj. rewrite Hd by lia. reflexivity.
Qed.

Theorem C03_addevaltrans : forall alpha a rows cols P M x y f h m,
  sparse_is a rows cols P M -> vval m x f -> vval m y h -> vdim y = cols -> vdim x = rows ->
  disj (inv x) (inv y) ->
  ends (addevaltrans_sparsematrix_avector alpha a x y) m (fun _ m' =>
    vval m' y (fun j => h j + alpha * mvec rows (fun j i => M i j) f j)%F /\ keeps (inv y) m m').
Proof.
  intros alpha a rows cols P M x y f h m [E1 [E2 [rs [cs [vs [Hw [Hnd [Hst Hd]]]]]]]] Hx Hy Hr Hc Hdis.
  apply wp_ends. eapply (wp_addevaltrans_sparsematrix_avector L); eauto; try lia; unfold rdok, wrok; auto.
  intros m' Hv Hk. split; [|exact Hk]. eapply vval_ext; [exact Hv|].
  intros j Hj; cbv beta. f_equal. f_equal. unfold mvec. rewrite E1. apply sum_ext.
  intros i Hi. rewrite Hd by lia. reflexivity.
Qed.

Theorem C03_mvm : forall alpha (t : bool) a rows cols P M x y f h m,
  sparse_is a rows cols P M -> vval m x f -> vval m y h ->
  vdim y = (if t then cols else rows) -> vdim x = (if t then rows else cols) ->
  disj (inv x) (inv y) ->
  ends (mvm_sparsematrix_avector alpha t a x y) m (fun _ m' =>
    vval m' y (fun i => h i + alpha * mvec (vdim x) (if t then (fun j i => M i j) else M) f i)%F
    /\ keeps (inv y) m m').
Proof.
  intros alpha t a rows cols P M x y f h m Hs Hx Hy Hdy Hdx Hdis. unfold mvm_sparsematrix_avector.
  destruct t; rewrite Hdx; [eapply C03_addevaltrans|eapply C03_addeval]; eauto.
Qed.

(** When the conjugation is trivial (real builds), the transposed product is
    the product with the adjoint that the documentation announces. *)
Theorem C03_mvm_real_adjoint : (forall z : K, fconj z = z) ->
  forall alpha (t : bool) a rows cols P M x y f h m,
  sparse_is a rows cols P M -> vval m x f -> vval m y h ->
  vdim y = (if t then cols else rows) -> vdim x = (if t then rows else cols) ->
  disj (inv x) (inv y) ->
  ends (mvm_sparsematrix_avector alpha t a x y) m (fun _ m' =>
    vval m' y (fun i => h i + alpha * mvec (vdim x) (tr t M) f i)%F /\ keeps (inv y) m m').
Proof.
  intros Hc alpha t a rows cols P M x y f h m Hs Hx Hy Hdy Hdx Hdis.
  destruct (C03_mvm alpha t a rows cols P M x y f h m Hs Hx Hy Hdy Hdx Hdis) as [u [m' [E [Hv Hk]]]].
  exists u, m'. split; [exact E|]. split; [|exact Hk]. eapply vval_ext; [exact Hv|].
  intros i Hi; cbv beta. f_equal. f_equal. unfold mvec. apply sum_ext. intros j Hj.
  destruct t; cbn; [rewrite Hc|]; reflexivity.
Qed.

Theorem C03_add_sparsematrix_amatrix : forall alpha (t : bool) a rows cols P M (b : mat) h m,
  sparse_is a rows cols P M -> mwf b -> mval m b h ->
  mrows b = (if t then cols else rows) -> mcols b = (if t then rows else cols) ->
  ends (add_sparsematrix_amatrix alpha t a b) m (fun _ m' =>
    mval m' b (fun i j => h i j + alpha * (if t then M j i else M i j))%F /\ keeps (inm b) m m').
Proof.
  intros alpha t a rows cols P M b h m [E1 [E2 [rs [cs [vs [Hw [Hnd [Hst Hd]]]]]]]] Hwf Hb Hr Hc.
  apply wp_ends. eapply (wp_add_sparsematrix_amatrix L); eauto; try (destruct t; lia);
    unfold rdok, wrok; auto.
  intros m' Hv Hk. split; [|exact Hk]. eapply mval_ext; [exact Hv|].
  intros i j Hi Hj; cbv beta. destruct t; rewrite Hd by lia; reflexivity.
Qed.

(** Vectors of the wrong dimension are rejected by an assertion. *)
Theorem C03_mvm_dim : forall alpha (t : bool) a x y m,
  (if t then srows a <> vdim x \/ scols a <> vdim y else srows a <> vdim y \/ scols a <> vdim x) ->
  fails (mvm_sparsematrix_avector alpha t a x y) m EAssert.
Proof.
  intros alpha t a x y m H. unfold fails, mvm_sparsematrix_avector.
  destruct t; unfold addevaltrans_sparsematrix_avector, addeval_sparsematrix_avector.
  - destruct (Nat.eqb_spec (srows a) (vdim x)); [|reflexivity].
    destruct (Nat.eqb_spec (scols a) (vdim y)); [tauto|reflexivity].
  - destruct (Nat.eqb_spec (srows a) (vdim y)); [|reflexivity].
    destruct (Nat.eqb_spec (scols a) (vdim x)); [tauto|reflexivity].
Qed.
End C03.

(** For complex coefficients the product with [trans = true] is not the product
    with the adjoint (the documentation, Library/sparsematrix.h:204-233, announces
    the adjoint): the 1 x 1 matrix (i) applied to 1 gives i instead of -i. *)
Definition xsm : smat GQf := SMat 1 1 1 (aof [0; 1]) (aof [0]) (aof [gq 0 1]).
Definition xgm : mem GQf := mem_of [[gq 1 0]; [gq 0 0]].
Theorem C03_adjoint_refuted : exists (a : smat GQf) x y (f h : nat -> GQf) M m,
  sparse_is a 1 1 (fun i j => i = 0 /\ j = 0) M /\
  vval m x f /\ vval m y h /\ vdim x = 1 /\ vdim y = 1 /\ disj (inv x) (inv y) /\
  ends (mvm_sparsematrix_avector f1 true a x y) m (fun _ m' =>
    exists g, vval m' y g /\ g 0 <> fadd (h 0) (fmul f1 (mvec 1 (tr true M) f 0))).
Proof.
  exists xsm, (Vec 0 0 1 true), (Vec 1 0 1 true), (fun _ => f1), (fun _ => f0), (fun _ _ => gq 0 1), xgm.
  split; [|split; [|split; [|split; [|split; [|split]]]]]; try reflexivity.
  - split; [reflexivity|]. split; [reflexivity|].
    exists (fun i => i), (fun _ => 0), (fun _ => gq 0 1). split; [|split; [|split]].
    + constructor; cbn; try lia; try reflexivity.
      * split; [reflexivity|]. intros [|[|i]] Hi; try reflexivity; lia.
      * split; [reflexivity|]. intros [|i] Hi; try reflexivity; lia.
      * split; [reflexivity|]. intros [|i] Hi; try reflexivity; lia.
    + intros i k l Hi Hk Hl _. lia.
    + intros i j Hi. unfold stored. split; [intros [k [Hk <-]]; lia|].
      intros [-> ->]. exists 0. lia.
    + intros i j Hi Hj. assert (i = 0) by lia. assert (j = 0) by lia. subst.
      apply injective_projections; apply Qcanon.Qc_is_canon; reflexivity.
  - intros i Hi. cbn in Hi. assert (i = 0) by lia. subst. vm_compute. reflexivity.
  - intros i Hi. cbn in Hi. assert (i = 0) by lia. subst. vm_compute. reflexivity.
  - apply disj_vv_blk. discriminate.
  - eexists tt, _. split; [reflexivity|]. exists (fun _ => gq 0 1). split.
    + intros i Hi. cbn in Hi. assert (i = 0) by lia. subst. vm_compute. reflexivity.
    + vm_compute. congruence.
Qed.

Example C03_hyps : exists (a : smat Zf) M,
  sparse_is a 4 4 (fun i j => j < 4 /\ live xpops i j) M /\ M 1 3 = 7%Z.
Proof.
  destruct C02_hyps as [H1 H2].
  destruct (pat_run_rep 4 4 xpops ltac:(lia) ltac:(lia) H1) as [sp [f [E _]]].
  destruct (C02_sparse_history Zf_ring 4 4 xpops sp xsops ltac:(lia) ltac:(lia) H1 E H2)
    as [a [a' [out [M [Ea [Er [Ed Hs]]]]]]].
  exists a', M. split; [exact Hs|].
  injection Ed as <- _. reflexivity.
Qed.

(** ** C42: norm estimation *)
Section C42.
Context {K : fops} (L : ring_laws K).

(** For a square matrix the estimator runs the power iteration of the matrix
    and leaves the memory as it was.  Missing: rectangular matrices, see below;
    and the transposed instead of the adjoint matrix is used, see C03. *)
Theorem C42_norm2_square_partial : forall sq pos rnd (a : smat K) n P M m,
  sparse_is a n n P M ->
  ends (norm2_sparsematrix sq pos rnd a) m (fun r m' =>
    (exists M' : nat -> nat -> K, (forall i j, i < n -> j < n -> M' i j = M i j) /\
       r = sq (power_it sq pos n n M' (fun i j => M' j i) NORM_STEPS (sq (dot n rnd rnd)) rnd)) /\
    keeps (fun _ => False) m m').
Proof.
  intros sq pos rnd a n P M m [E1 [E2 [rs [cs [vs [Hw [Hnd [Hst Hd]]]]]]]].
  apply wp_ends. unfold norm2_sparsematrix. rewrite E1.
  eapply (wp_norm2_matrix L) with (F := fun _ => False) (I := fun _ => True).
  - pose proof (mvm_ok_sparse L a rs cs vs Hw) as Hm. rewrite E1, E2 in Hm. exact Hm.
  - exact I.
  - intros ? [].
  - intros ? [].
  - intros m' Hk. split; [|exact Hk]. exists (sden rs cs vs). auto.
Qed.

Theorem C42_norm2diff_square_partial : forall sq pos rnd (a b : smat K) n P M P' N m,
  sparse_is a n n P M -> sparse_is b n n P' N ->
  ends (norm2diff_sparsematrix sq pos rnd a b) m (fun r m' =>
    (exists D : nat -> nat -> K, (forall i j, i < n -> j < n -> D i j = (M i j - N i j)%F) /\
       r = sq (power_it sq pos n n D (fun i j => D j i) NORM_STEPS (sq (dot n rnd rnd)) rnd)) /\
    keeps (fun _ => False) m m').
Proof.
  intros sq pos rnd a b n P M P' N m [E1 [E2 [rs [cs [vs [Hw [Hnd [Hst Hd]]]]]]]]
    [E1' [E2' [rs' [cs' [vs' [Hw' [Hnd' [Hst' Hd']]]]]]]].
  apply wp_ends. unfold norm2diff_sparsematrix, norm2diff_matrix. rewrite E1.
  eapply (wp_norm2_matrix L) with (F := fun _ => False \/ False) (I := fun _ => True /\ True).
  - pose proof (mvm_ok_sparse L a rs cs vs Hw) as Hm. rewrite E1, E2 in Hm.
    pose proof (mvm_ok_sparse L b rs' cs' vs' Hw') as Hm'. rewrite E1', E2' in Hm'.
    exact (mvm_ok_diff L _ _ _ _ _ _ _ _ _ _ _ _ Hm Hm').
  - auto.
  - intros ? [[]|[]].
  - intros ? [[]|[]].
  - intros m' Hk. split; [|exact Hk].
    exists (fun i j => (sden rs cs vs i j - sden rs' cs' vs' i j)%F). split; [|reflexivity].
    intros i j Hi Hj. rewrite Hd, Hd' by assumption. reflexivity.
Qed.
End C42.

(** A 1 x 2 matrix: norm2_sparsematrix stops on a failed assertion because it
    multiplies with a vector of the wrong dimension. *)
Definition xrect : smat Zf := SMat (K:=Zf) 1 2 1 (aof [0; 1]) (aof [1]) (aof [3%Z]).
Theorem C42_norm2_rect_refuted : exists (a : smat Zf) M m,
  sparse_is a 1 2 (fun i j => i = 0 /\ j = 1) M /\
  fails (norm2_sparsematrix (fun x : Zf => x) (fun x : Zf => (0 <? x)%Z) (fun _ => 1%Z) a) m EAssert.
Proof.
  exists xrect, (fun i j => if (i =? 0) && (j =? 1) then 3%Z else 0%Z), (mem_of []). split.
  - split; [reflexivity|]. split; [reflexivity|].
    exists (fun i => i), (fun _ => 1), (fun _ => 3%Z). split; [|split; [|split]].
    + constructor; cbn; try lia; try reflexivity.
      * split; [reflexivity|]. intros [|[|i]] Hi; try reflexivity; lia.
      * split; [reflexivity|]. intros [|i] Hi; try reflexivity; lia.
      * split; [reflexivity|]. intros [|i] Hi; try reflexivity; lia.
    + intros i k l Hi Hk Hl _. lia.
    + intros i j Hi. unfold stored. split; [intros [k [Hk <-]]; lia|].
      intros [-> ->]. exists 0. lia.
    + intros [|i] [|[|j]] Hi Hj; try lia; reflexivity.
  - vm_compute. reflexivity.
Qed.

Print Assumptions C01_pattern_is_set.
Print Assumptions C01_addnz_out_of_range.
Print Assumptions C02_sparse_history.
Print Assumptions C02_new_zero.
Print Assumptions C02_unstored_rejected.
Print Assumptions C02_sort.
Print Assumptions C02_new_identity.
Print Assumptions C03_addeval.
Print Assumptions C03_addevaltrans.
Print Assumptions C03_mvm.
Print Assumptions C03_mvm_real_adjoint.
Print Assumptions C03_add_sparsematrix_amatrix.
Print Assumptions C03_mvm_dim.
Print Assumptions C03_adjoint_refuted.
Print Assumptions C42_norm2_square_partial.
Print Assumptions C42_norm2diff_square_partial.
Print Assumptions C42_norm2_rect_refuted.
