(** * C28, C35: reference counting and lists of uniform matrices *)
From Coq Require Import Arith Lia List Bool.
From Verif Require Import Prog HmSpec HmP RefHeap RefSpec RefP RefP2 RefP3 RefP4 RefP5.
Import ListNotations.

Lemma wf_empty : wf empty_heap.
Proof. constructor; intros; discriminate. Qed.

(** ** C28 *)
(** Every history of admissible operations runs without access to released memory and without
    assertion failure, and leads to a heap with correct counters, pointers and lists. *)
Theorem C28_history fuel ops : forall s, wf s -> legal fuel s ops -> exists s', execs fuel ops s = Ok s' /\ wf s'.
Proof.
  induction ops as [|o ops IH]; intros s Hw Hl; [exists s; auto|]. inversion Hl as [|? ? ? Hok Hnext]; subst.
  destruct (exec_ok fuel s o (proj2 (good_wf s) Hw) Hok) as (s1 & R & Hg & _). apply good_wf in Hg.
  destruct (IH s1 Hg (Hnext s1 R)) as (s' & R' & Hw'). exists s'. cbn [execs]. rewrite R. auto.
Qed.
(** An operation releases a structure exactly if it removes the last reference. *)
Theorem C28_freed fuel s o s' x n : wf s -> op_ok fuel s o -> exec fuel o s = Ok s' -> hp s x = Some n -> 0 < nr n ->
  (hp s' x = None <-> refcount s' x = 0).
Proof.
  intros Hw Hok R Hx Hr. destruct (exec_ok fuel s o (proj2 (good_wf s) Hw) Hok) as (s1 & R1 & Hg & Hz). rewrite R in R1. injection R1 as <-. pose proof (proj1 (good_wf s') Hg) as Hw'. split.
  - intros H0. rewrite <- cnt_refcount. unfold cnt. apply nsum_zero. intros p _. destruct (hp s' p) as [m|] eqn:Em; [|reflexivity]. unfold ncnt. apply nsum_zero. intros i _.
    unfold hit. destruct (nth_error (nc m) i) as [[y|]|] eqn:Ei; try reflexivity. destruct (Nat.eqb_spec y x) as [->|]; [|reflexivity]. destruct (wf_points s' Hw' _ _ _ _ Em Ei) as (q & Hq & _). congruence.
  - intros H0. destruct (hp s' x) as [n'|] eqn:E; [|reflexivity]. exfalso. destruct (Hz x n' E) as (n0 & Hn0 & Hr0).
    + rewrite (wf_refs s' Hw' _ _ E). exact H0.
    + exact (wf_next s Hw _ _ Hx).
    + rewrite Hx in Hn0. injection Hn0 as <-. lia.
Qed.
(** A structure stays alive as long as there is a pointer to it. *)
Corollary C28_alive fuel ops s' p n i x : legal fuel empty_heap ops -> execs fuel ops empty_heap = Ok s' -> hp s' p = Some n -> nth_error (nc n) i = Some (Some x) ->
  exists m, hp s' x = Some m /\ nk m = target (nk n) i /\ nr m = refcount s' x.
Proof.
  intros Hl R Hp Hi. destruct (C28_history fuel ops empty_heap wf_empty Hl) as (s1 & R1 & Hw). rewrite R in R1. injection R1 as <-.
  destruct (wf_points s' Hw _ _ _ _ Hp Hi) as (m & Hm & Hk). exists m. split; [exact Hm|]. split; [exact Hk|]. exact (wf_refs s' Hw _ _ Hm).
Qed.
(** No leaks: if the caller holds nothing, only the variables of the caller are left. *)
Lemma refs_pointed s x n : wf s -> hp s x = Some n -> 0 < nr n -> exists p m i, hp s p = Some m /\ nth_error (nc m) i = Some (Some x).
Proof.
  intros Hw Hx Hr. rewrite (wf_refs s Hw _ _ Hx), <- cnt_refcount in Hr. unfold cnt in Hr.
  assert (Hs : forall k f, 0 < nsum k f -> exists p, p < k /\ 0 < f p).
  { clear. induction k as [|k IH]; intros f H; cbn in H; [lia|]. destruct (Nat.eq_dec (f k) 0) as [E|]; [|exists k; lia]. destruct (IH f ltac:(lia)) as (p & Hp & Hf). exists p. split; [lia|exact Hf]. }
  destruct (Hs _ _ Hr) as (p & _ & Hp). destruct (hp s p) as [m|] eqn:Em; [|lia]. unfold ncnt in Hp. destruct (Hs _ _ Hp) as (i & _ & Hi).
  unfold hit in Hi. destruct (nth_error (nc m) i) as [[y|]|] eqn:Ei; try lia. destruct (Nat.eqb_spec y x) as [->|]; [|lia]. exists p, m, i. auto.
Qed.
Theorem C28_no_leak fuel ops s : legal fuel empty_heap ops -> execs fuel ops empty_heap = Ok s -> acyclic s -> nothing_held s ->
  forall x n, hp s x = Some n -> isvar (nk n).
Proof.
  intros Hl R (rk & Hrk & Hrk2) (H1 & H2 & H3). destruct (C28_history fuel ops empty_heap wf_empty Hl) as (s1 & R1 & Hw). rewrite R in R1. injection R1 as <-.
  assert (Hmax : exists M, forall x n, hp s x = Some n -> rk x <= M).
  { assert (Q : forall k, exists M, forall x, x < k -> rk x <= M).
    { induction k as [|k (M & HM)]; [exists 0; lia|]. exists (Nat.max M (rk k)). intros x Hx. destruct (Nat.eq_dec x k) as [->|]; [lia|]. specialize (HM x ltac:(lia)). lia. }
    destruct (Q (nx s)) as (M & HM). exists M. intros x n Hx. apply HM. exact (wf_next s Hw _ _ Hx). }
  destruct Hmax as (M & HM).
  assert (Main : forall d x n, M - rk x <= d -> hp s x = Some n -> isvar (nk n)).
  { induction d as [|d IH]; intros x n Hd Hx.
    - assert (Hv : isvar (nk n) \/ ~ isvar (nk n)) by (unfold isvar; destruct (nk n); intuition congruence). destruct Hv as [Hv|Hv]; [exact Hv|]. exfalso.
      assert (Hup : exists p m, hp s p = Some m /\ rk x < rk p).
      { assert (HU : nk n = KU \/ nk n <> KU) by (destruct (nk n); auto; right; discriminate). destruct HU as [HU|HU].
        - destruct (H3 x) as (p & m & Hp & Hm); [exists n; auto|]. exists p, m. split; [exact Hp|eauto].
        - destruct (Nat.eq_dec (nr n) 0) as [E|E]; [destruct (H2 x n Hx E); contradiction|]. destruct (refs_pointed s x n Hw Hx ltac:(lia)) as (p & m & i & Hp & Hi).
          exists p, m. split; [exact Hp|]. apply (Hrk p i x). exists m. auto. }
      destruct Hup as (p & m & Hp & Hlt). specialize (HM p m Hp). pose proof (HM). lia.
    - assert (Hv : isvar (nk n) \/ ~ isvar (nk n)) by (unfold isvar; destruct (nk n); intuition congruence). destruct Hv as [Hv|Hv]; [exact Hv|]. exfalso.
      assert (HU : nk n = KU \/ nk n <> KU) by (destruct (nk n); auto; right; discriminate). destruct HU as [HU|HU].
      + destruct (H3 x) as (p & m & Hp & Hm); [exists n; auto|]. assert (Hpv : isvar (nk m)) by (apply (IH p m); [pose proof (Hrk2 p m x Hp Hm); lia|exact Hp]).
        destruct (wf_shape s Hw _ _ Hp) as (_ & _ & _ & Q). assert (nk m <> KH) by (destruct Hpv as [E|[E|[E|E]]]; rewrite E; discriminate). rewrite Q in Hm by assumption. discriminate.
      + destruct (Nat.eq_dec (nr n) 0) as [E|E]; [destruct (H2 x n Hx E); contradiction|]. destruct (refs_pointed s x n Hw Hx ltac:(lia)) as (p & m & i & Hp & Hi).
        assert (Hpv : isvar (nk m)) by (apply (IH p m); [assert (rk x < rk p) by (apply (Hrk p i x); exists m; auto); lia|exact Hp]). exact (H1 p m i x Hp Hpv Hi). }
  intros x n Hx. apply (Main M x n); [lia|exact Hx].
Qed.

(** The code frees an object that is assigned to the only pointer that refers to it and then uses it. *)
Theorem C28_self_assign_refuted fuel s v nv b n : hp s v = Some nv -> v <> b -> nth_error (nc nv) 0 = Some (Some b) ->
  hp s b = Some n -> nr n = 1 -> nc n = [] -> nl n false = None -> nl n true = None ->
  ref_tree (S fuel) v 0 (Some b) s = Err EBounds.
Proof.
  intros Hv Hne Hp Hb Hr Hc L1 L2. unfold ref_tree, ref_with, getn, slot. rewrite Hv. cbn [rbind]. rewrite Hp. cbn [rbind unref_tree]. unfold getn. rewrite Hb. cbn [rbind]. rewrite Hr. cbn [Nat.ltb Nat.leb rassert rbind Nat.sub].
  unfold getn. rewrite put_same. cbn [rbind nr with_r Nat.eqb]. unfold del_tree, getn. rewrite put_same. cbn [rbind nr with_r nl nc Nat.eqb rassert]. rewrite L1, L2, Hc. cbn [isnull rassert rbind length sonloop].
  change (0 <? 1) with true. change (0 =? 0) with true. cbn [rassert rbind]. unfold update, getn. cbn [hp put].
  replace (v =? b) with false by (symmetry; apply Nat.eqb_neq; exact Hne). rewrite Hv. cbn [rbind hp put]. replace (b =? v) with false by (symmetry; apply Nat.eqb_neq; congruence). rewrite Nat.eqb_refl. reflexivity.
Qed.
(** The same for H2-matrices: after the release the new value is not valid any more. *)
Theorem C28_self_assign_h2_refuted fuel s v nv x n s1 : hp s v = Some nv -> v <> x -> nth_error (nc nv) 0 = Some (Some x) ->
  hp s x = Some n -> nk nv = KVH -> nk n = KH -> nr n = 1 -> wf s -> complete s fuel x -> unref_h2 fuel fuel x s = Ok s1 ->
  ref_h2 fuel v 0 (Some x) s = Err EBounds.
Proof.
  intros Hv Hne Hp Hx Hkv Hk Hr Hw Hc R. pose proof (proj2 (good_wf s) Hw) as Hg. pose proof Hg as (Hi & _).
  destruct (unref_h2_ok fuel fuel (le_n _) x s (excl none2 v 0) nox (inc zero x)) as (s2 & R2 & Hg2 & He).
  - eapply good_excl; [exact Hg|exact Hv|congruence|exact Hp|reflexivity].
  - unfold inc. rewrite Nat.eqb_refl. lia.
  - exists n. auto.
  - eapply cpl_cycle; eauto. apply cpl_complete, Hc.
  - rewrite R in R2. injection R2 as <-.
    assert (Hv1 : hp s1 v = Some nv) by (apply (ev_kind _ _ _ He); [exact Hv|rewrite Hkv; reflexivity]).
    assert (Hx1 : hp s1 x = None).
    { destruct (hp s1 x) as [n1|] eqn:E; [|reflexivity]. exfalso. destruct (ev_same _ _ _ He _ _ _ Hx E) as (_ & _ & _ & Q). destruct Hg2 as (Hi2 & _).
      pose proof (iv_refs _ _ _ Hi2 _ _ E) as Q2. pose proof (iv_refs _ _ _ Hi _ _ Hx) as Q3. rewrite (cnt_excl s none2 v nv 0 (Some x) x Hv (iv_next _ _ _ Hi _ _ Hv) Hp eq_refl) in Q3.
      cbn [ptr_eqb] in Q3. rewrite Nat.eqb_refl, Hr in Q3. unfold zero in Q3.
      (* no references are left *)
      assert (Hle : cnt s1 (excl none2 v 0) x <= cnt s (excl none2 v 0) x).
      { unfold cnt. rewrite (ev_nx _ _ _ He). assert (M : forall k f g, (forall p, f p <= g p) -> nsum k f <= nsum k g) by (intros k f g H; induction k; cbn; [lia|specialize (H k); lia]).
        apply M. intros p. destruct (hp s1 p) as [m1|] eqn:E1; [|lia]. destruct (hp s p) as [m|] eqn:E0; [|rewrite (ev_none _ _ _ He _ E0) in E1; discriminate].
        destruct (ev_same _ _ _ He _ _ _ E0 E1) as (_ & -> & _). lia. }
      assert (nr n1 = 0) by (rewrite Q2; unfold dec, inc, zero; rewrite Nat.eqb_refl; lia). specialize (Q H). lia. }
    unfold ref_h2, ref_with, getn, slot. rewrite Hv. cbn [rbind]. rewrite Hp. cbn [rbind]. rewrite R. cbn [rbind]. unfold update at 1, getn at 1. rewrite Hv1. cbn [rbind]. unfold update, getn. rewrite put_other by congruence. rewrite Hx1. reflexivity.
Qed.
(** Matrices with unset sons cannot be deleted: the code releases null pointers. *)
Theorem C28_null_son_refuted un k n s : del_tree un (nx s) (snd (new_tree k (S n) s)) = Err ENull.
Proof. unfold del_tree, new_tree, alloc, getn. cbn [snd hp]. rewrite !Nat.eqb_refl. cbn -[getn]. unfold getn. cbn [hp]. rewrite !Nat.eqb_refl. reflexivity. Qed.

(** ** C35 *)
(** After any history of admissible operations the row (column) list of a cluster basis is a doubly
    linked list of exactly the uniform matrices that have this row (column) basis, and the counter is
    the number of references. *)
Theorem C35_history fuel ops s : legal fuel empty_heap ops -> execs fuel ops empty_heap = Ok s ->
  forall b n, hp s b = Some n -> nk n = KB ->
    nr n = refcount s b /\
    forall sd, exists l, NoDup l /\
      (forall u, In u l <-> live s u KU /\ points s u (side sd) (Some b)) /\
      chain (next_of s sd) (prev_of s sd) None (nl n sd) l.
Proof.
  intros Hl R b n Hb Hk. destruct (C28_history fuel ops empty_heap wf_empty Hl) as (s1 & R1 & Hw). rewrite R in R1. injection R1 as <-.
  split; [exact (wf_refs s Hw _ _ Hb)|]. intros sd. exact (wf_lists s Hw b n sd Hb Hk).
Qed.
(** [unref_row_uniform] leaves the list pointers of the matrix: if it had neighbours, the next call
    fails, and so does [del_uniform]. *)
Theorem C35_stale_refuted fuel s u n sd b s' : wf s -> hp s u = Some n -> nk n = KU -> nth_error (nc n) (side sd) = Some (Some b) -> complete s fuel b ->
  nn n sd <> None \/ np n sd <> None -> unref_uniform fuel sd u s = Ok s' ->
  unref_uniform fuel sd u s' = Err EAssert.
Proof.
  intros Hw Hu Hk Hb Hc Hs R. pose proof (proj2 (good_wf s) Hw) as Hg.
  destruct (unref_uniform_ok fuel s none2 nox zero u n sd b Hg Hu Hk Hb eq_refl (cpl_complete _ _ _ Hc)) as (s3 & s4 & R1 & _). rewrite R in R1. injection R1 as ->.
  assert (Hlen : side sd < length (nc n)) by (apply nth_error_Some; congruence).
  unfold unref_uniform, getn. rewrite put_same. cbn [rbind]. unfold slot. cbn [nc with_c]. rewrite lset_same by exact Hlen. cbn [rbind nn np with_c].
  destruct (nn n sd); [reflexivity|]. destruct (np n sd); [reflexivity|]. destruct Hs; congruence.
Qed.

(** ** Examples: a decision procedure for admissible histories *)
Definition keqb (a b : kind) : bool := only a b.
Definition liveb (s : heap) (x : nat) (k : kind) : bool := match hp s x with Some n => keqb k (nk n) | None => false end.
Fixpoint completeb (s : heap) (d x : nat) : bool :=
  match d with
  | 0 => false
  | S d' => match hp s x with
      | Some n => forallb (fun p => match p with Some y => completeb s d' y | None => false end) (nc n) &&
                  match nu n with Some u => completeb s d' u | None => true end
      | None => false end
  end.
Fixpoint heldb (s : heap) (d o i x : nat) : bool :=
  match d with
  | 0 => false
  | S d' =>
      match hp s x with Some n => (nr n =? 0) && negb (keqb KU (nk n)) | None => false end ||
      existsb (fun p => match hp s p with
        | None => false
        | Some n => existsb (fun j => ptr_eqb (nth j (nc n) None) (Some x) && negb ((p =? o) && (j =? i)) &&
            (if keqb (nk n) (target (nk n) j) then heldb s d' o i p else true)) (seq 0 (length (nc n)))
        end) (seq 0 (nx s))
  end.
Definition ref_okb (fuel d : nat) (s : heap) (k : kind) (o i : nat) (t : option nat) : bool :=
  match hp s o with
  | None => false
  | Some n => negb (keqb KU (nk n)) && (i <? length (nc n)) && keqb k (target (nk n) i) &&
      match nth i (nc n) None with Some x => completeb s fuel x | None => true end &&
      (negb (keqb k (nk n)) || heldb s d o i o) &&
      match t with Some y => liveb s y k && heldb s d o i y | None => true end
  end.
Definition unref_okb (fuel : nat) (s : heap) (sd : bool) (u : nat) : bool :=
  match hp s u with
  | None => false
  | Some n => keqb KU (nk n) && (side sd <? length (nc n)) &&
      match nth (side sd) (nc n) None with Some b => completeb s fuel b | None => isnull (nn n sd) && isnull (np n sd) end
  end.
Definition liveo (s : heap) (t : option nat) : bool := match t with Some x => liveb s x KB | None => true end.
Definition lives (s : heap) (t : option nat) : bool := match t with Some x => liveb s x KB | None => false end.
Definition istreeb (k : kind) : bool := keqb KB k || keqb KM k || keqb KO k.
Definition op_okb (fuel d : nat) (s : heap) (o : op) : bool :=
  match o with
  | OVar k => keqb KVB k || keqb KVM k || keqb KVO k || keqb KVH k
  | ONewTree k n => istreeb k
  | ONewUniform rb cb => lives s rb && lives s cb
  | ONewH2 rb cb n => liveo s rb && liveo s cb
  | ONewUniformH2 rb cb => lives s rb && lives s cb
  | ORefTree o i t => existsb (fun k => ref_okb fuel d s k o i t) [KB; KM; KO]
  | ORefH2 o i t => ref_okb fuel d s KH o i t
  | ORefUniform sd u t => match hp s u with
      | None => false
      | Some n => keqb KU (nk n) && (side sd <? length (nc n)) &&
          (ptr_eqb (nth (side sd) (nc n) None) t ||
           match nth (side sd) (nc n) None with Some x => completeb s fuel x | None => true end &&
           match t with Some y => liveb s y KB && heldb s d u (side sd) y | None => true end)
      end
  | OUnrefUniform sd u => unref_okb fuel s sd u
  | ODelTree x => match hp s x with Some n => istreeb (nk n) && (nr n =? 0) && completeb s (S fuel) x | None => false end
  | ODelUniform u => unref_okb fuel s false u && unref_okb fuel s true u &&
      forallb (fun x => match hp s x with Some n => negb (ptr_eqb (nu n) (Some u)) | None => true end) (seq 0 (nx s))
  | ODelH2 x => match hp s x with Some n => keqb KH (nk n) && (nr n =? 0) && completeb s (S fuel) x | None => false end
  end.
Fixpoint legalb (fuel d : nat) (s : heap) (ops : list op) : bool :=
  match ops with
  | [] => true
  | o :: l => op_okb fuel d s o && match exec fuel o s with Ok s' => legalb fuel d s' l | Err _ => true end
  end.

Lemma liveb_ok s x k : liveb s x k = true -> live s x k.
Proof. unfold liveb. destruct (hp s x) as [n|] eqn:E; [|discriminate]. intros H. apply only_true in H. exists n. auto. Qed.
Lemma completeb_ok s d : forall x, completeb s d x = true -> complete s d x.
Proof.
  induction d as [|d IH]; intros x H; [discriminate|]. cbn in H. destruct (hp s x) as [n|] eqn:E; [|discriminate]. apply andb_true_iff in H as (H1 & H2). exists n. split; [exact E|]. split.
  - intros i p Hp. rewrite forallb_forall in H1. specialize (H1 p (nth_error_In _ _ Hp)). destruct p as [y|]; [|discriminate]. exists y. auto.
  - intros u Hu. rewrite Hu in H2. auto.
Qed.
Lemma nth_nth_error {A} (l : list A) i d : i < length l -> nth_error l i = Some (nth i l d).
Proof. revert i. induction l as [|a l IH]; intros [|i] H; cbn in *; try lia; [reflexivity|]. apply IH. lia. Qed.
Lemma heldb_ok s d o i : forall x, heldb s d o i x = true -> held s o i x.
Proof.
  induction d as [|d IH]; intros x H; [discriminate|]. cbn [heldb] in H. apply orb_true_iff in H as [H|H].
  - destruct (hp s x) as [n|] eqn:E; [|discriminate]. apply andb_true_iff in H as (H1 & H2). apply Nat.eqb_eq in H1. eapply held_new; [exact E|exact H1|].
    intros Q. rewrite Q in H2. discriminate.
  - apply existsb_exists in H as (p & _ & H). destruct (hp s p) as [n|] eqn:E; [|discriminate]. apply existsb_exists in H as (j & Hj & H). apply in_seq in Hj.
    apply andb_true_iff in H as (H & H3). apply andb_true_iff in H as (H1 & H2). destruct (ptr_eqb_spec (nth j (nc n) None) (Some x)) as [E1|]; [|discriminate].
    assert (Hn : nth_error (nc n) j = Some (Some x)) by (rewrite (nth_nth_error _ j None) by lia; congruence).
    assert (Hne : (p, j) <> (o, i)).
    { intros Q. injection Q as -> ->. rewrite !Nat.eqb_refl in H2. discriminate. }
    destruct (keqb (nk n) (target (nk n) j)) eqn:Ek.
    + apply only_true in Ek. eapply held_in; [exact E|symmetry; exact Ek|apply IH; exact H3|exact Hn|exact Hne].
    + eapply held_out; [exact E| |exact Hn|exact Hne]. intros Q. rewrite <- Q in Ek. unfold keqb in Ek. rewrite (proj2 (only_true _ _) eq_refl) in Ek. discriminate.
Qed.
Lemma istreeb_ok k : istreeb k = true -> istree k.
Proof. unfold istreeb, istree. rewrite !orb_true_iff. unfold keqb. rewrite !only_true. tauto. Qed.
Ltac ands := repeat match goal with H : (_ && _)%bool = true |- _ => apply andb_true_iff in H as (? & ?) end.
Lemma ref_okb_ok fuel d s k o i t : ref_okb fuel d s k o i t = true -> ref_ok fuel s k o i t.
Proof.
  unfold ref_okb. destruct (hp s o) as [n|] eqn:E; [|discriminate]. intros H. ands.
  exists n, (nth i (nc n) None). split; [exact E|]. split; [intros Q; rewrite Q in *; discriminate|]. split; [apply nth_nth_error, Nat.ltb_lt; assumption|].
  split; [apply only_true; assumption|]. split; [|split].
  - destruct (nth i (nc n) None); [apply completeb_ok; assumption|exact I].
  - intros Q. apply (heldb_ok s d). match goal with H : (_ || _)%bool = true |- _ => apply orb_true_iff in H as [H|H]; [|exact H] end. unfold keqb in *. rewrite Q, (proj2 (only_true k k) eq_refl) in *. discriminate.
  - destruct t as [y|]; [|exact I]. ands. split; [apply liveb_ok; assumption|apply (heldb_ok s d); assumption].
Qed.
Lemma unref_okb_ok fuel s sd u : unref_okb fuel s sd u = true -> unref_ok fuel s sd u.
Proof.
  unfold unref_okb. destruct (hp s u) as [n|] eqn:E; [|discriminate]. intros H. ands. exists n, (nth (side sd) (nc n) None). split; [exact E|]. split; [apply only_true; assumption|].
  split; [apply nth_nth_error, Nat.ltb_lt; assumption|]. destruct (nth (side sd) (nc n) None); [apply completeb_ok; assumption|]. ands.
  destruct (nn n sd), (np n sd); try discriminate. auto.
Qed.
Lemma lives_ok s t : lives s t = true -> exists r, t = Some r /\ live s r KB.
Proof. destruct t as [x|]; [|discriminate]. intros H. exists x. split; [reflexivity|apply liveb_ok, H]. Qed.
Lemma liveo_ok s t : liveo s t = true -> live_opt s t KB.
Proof. destruct t as [x|]; [|intros _; exact I]. apply liveb_ok. Qed.
Lemma op_okb_ok fuel d s o : wf s -> op_okb fuel d s o = true -> op_ok fuel s o.
Proof.
  intros Hw. destruct o; cbn [op_okb op_ok]; intros H; ands.
  - unfold isvar. rewrite !orb_true_iff in H. unfold keqb in H. rewrite !only_true in H. tauto.
  - apply istreeb_ok, H.
  - split; apply lives_ok; assumption.
  - split; apply liveo_ok; assumption.
  - split; apply lives_ok; assumption.
  - apply existsb_exists in H as (k & Hk & H). exists k. split; [|eapply ref_okb_ok; eassumption]. unfold istree. destruct Hk as [<-|[<-|[<-|[]]]]; auto.
  - eapply ref_okb_ok; eassumption.
  - destruct (hp s u) as [n|] eqn:E; [|discriminate]. ands. exists n, (nth (side sd) (nc n) None). split; [reflexivity|]. split; [apply only_true; assumption|].
    split; [apply nth_nth_error, Nat.ltb_lt; assumption|]. match goal with H : (_ || _)%bool = true |- _ => apply orb_true_iff in H as [H|H] end.
    + left. destruct (ptr_eqb_spec (nth (side sd) (nc n) None) t); [assumption|discriminate].
    + right. ands. split; [destruct (nth (side sd) (nc n) None); [apply completeb_ok; assumption|exact I]|]. destruct t as [y|]; [|exact I]. ands. split; [apply liveb_ok; assumption|apply (heldb_ok s d); assumption].
  - apply unref_okb_ok, H.
  - destruct (hp s x) as [n|] eqn:E; [|discriminate]. ands. exists (nk n), n. split; [apply istreeb_ok; assumption|]. repeat split; try reflexivity; try (apply Nat.eqb_eq; assumption). apply completeb_ok. assumption.
  - split; [apply unref_okb_ok; assumption|]. split; [apply unref_okb_ok; assumption|]. intros x n Hx Hn. rewrite forallb_forall in *.
    match goal with H : forall x, In x _ -> _ |- _ => specialize (H x ltac:(apply in_seq; pose proof (wf_next s Hw _ _ Hx); lia)); rewrite Hx, Hn in H; cbn in H; rewrite Nat.eqb_refl in H; discriminate end.
  - destruct (hp s x) as [n|] eqn:E; [|discriminate]. ands. exists n. split; [reflexivity|]. split; [apply only_true; assumption|]. split; [apply Nat.eqb_eq; assumption|apply completeb_ok; assumption].
Qed.
Lemma legalb_ok fuel d ops : forall s, wf s -> legalb fuel d s ops = true -> legal fuel s ops.
Proof.
  induction ops as [|o l IH]; intros s Hw H; [constructor|]. cbn [legalb] in H. ands. assert (Hok : op_ok fuel s o) by (eapply op_okb_ok; eassumption). constructor; [exact Hok|].
  intros s' R. apply IH; [|rewrite R in *; assumption]. destruct (exec_ok fuel s o (proj2 (good_wf s) Hw) Hok) as (s1 & R1 & Hg & _). rewrite R in R1. injection R1 as <-. apply good_wf, Hg.
Qed.

(** The counters of the structures that have not been released, with the first elements of the lists *)
Definition shown (s : res heap) : option (list (option (kind * nat * option nat * option nat))) :=
  match s with
  | Ok s => Some (map (fun x => match hp s x with Some n => Some (nk n, nr n, nl n false, nl n true) | None => None end) (seq 0 (nx s)))
  | Err _ => None
  end.

(** Two cluster bases with common father, H2-matrices that share them, and everything is released. *)
Definition ex_ops : list op :=
  [ OVar KVB; OVar KVH;                       (* 0, 1 *)
    ONewTree KB 2; ONewTree KB 0; ONewTree KB 0; (* 2, 3, 4 *)
    ORefTree 2 0 (Some 3); ORefTree 2 1 (Some 4);
    ORefTree 0 0 (Some 2);
    ONewH2 (Some 2) (Some 2) 3;               (* 5 *)
    ONewUniformH2 (Some 3) (Some 4);          (* 6, 7 *)
    ONewUniformH2 (Some 3) (Some 4);          (* 8, 9 *)
    ONewH2 (Some 4) (Some 4) 0;               (* 10 *)
    ORefH2 5 2 (Some 6); ORefH2 5 3 (Some 8); ORefH2 5 4 (Some 10);
    ORefH2 1 0 (Some 5);
    ORefUniform false 7 (Some 4);
    ORefTree 0 0 None ].
Definition ex_end : list op := [ ORefH2 1 0 None ].
Example C28_example : legal 5 empty_heap (ex_ops ++ ex_end).
Proof. apply (legalb_ok 5 5); [apply wf_empty|]. vm_compute. reflexivity. Qed.
Example C28_example_state : shown (execs 5 ex_ops empty_heap) =
  Some [ Some (KVB, 0, None, None); Some (KVH, 0, None, None); Some (KB, 2, None, None); Some (KB, 4, Some 9, None); Some (KB, 8, Some 7, Some 9);
         Some (KH, 1, None, None); Some (KH, 1, None, None); Some (KU, 0, None, None); Some (KH, 1, None, None); Some (KU, 0, None, None); Some (KH, 1, None, None) ].
Proof. vm_compute. reflexivity. Qed.
Example C28_example_end : shown (execs 5 (ex_ops ++ ex_end) empty_heap) =
  Some [ Some (KVB, 0, None, None); Some (KVH, 0, None, None); None; None; None; None; None; None; None; None; None ].
Proof. vm_compute. reflexivity. Qed.

(** Self assignment after an admissible history *)
Definition ex_self : list op := [ OVar KVM; ONewTree KM 0; ORefTree 0 0 (Some 1) ].
Example C28_self_assign_example : legal 5 empty_heap ex_self /\ shown (execs 5 ex_self empty_heap) = Some [Some (KVM, 0, None, None); Some (KM, 1, None, None)] /\
  execs 5 (ex_self ++ [ORefTree 0 0 (Some 1)]) empty_heap = Err EBounds.
Proof. split; [apply (legalb_ok 5 5); [apply wf_empty|]; vm_compute; reflexivity|]. split; vm_compute; reflexivity. Qed.
(** A variable is replaced by a son of its present value. *)
Example C28_descendant_refuted : execs 5 [ OVar KVM; ONewTree KM 1; ONewTree KM 0; ORefTree 1 0 (Some 2); ORefTree 0 0 (Some 1); ORefTree 0 0 (Some 2) ] empty_heap = Err EBounds.
Proof. vm_compute. reflexivity. Qed.
Definition ex_self_h2 : list op := [ OVar KVH; ONewTree KB 0; ONewUniformH2 (Some 1) (Some 1); ORefH2 0 0 (Some 2) ].
Example C28_self_assign_h2_example : legal 5 empty_heap ex_self_h2 /\ execs 5 (ex_self_h2 ++ [ORefH2 0 0 (Some 2)]) empty_heap = Err EBounds.
Proof. split; [apply (legalb_ok 5 5); [apply wf_empty|]|]; vm_compute; reflexivity. Qed.
(** Unset sons *)
Example C28_null_son_example : execs 5 [ ONewTree KB 0; ONewH2 (Some 0) (Some 0) 1; ODelH2 1 ] empty_heap = Err ENull.
Proof. vm_compute. reflexivity. Qed.

(** Lists *)
Definition ex_lists : list op :=
  [ ONewTree KB 0; ONewTree KB 0; OVar KVB; OVar KVB; ORefTree 2 0 (Some 0); ORefTree 3 0 (Some 1);
    ONewUniform (Some 0) (Some 1); ONewUniform (Some 0) (Some 1); ONewUniform (Some 0) (Some 0);
    ORefUniform false 5 (Some 1); ORefUniform true 6 (Some 1); ODelUniform 4 ].
Example C35_example : legal 5 empty_heap ex_lists /\
  shown (execs 5 ex_lists empty_heap) = Some [Some (KB, 2, Some 6, None); Some (KB, 4, Some 5, Some 6); Some (KVB, 0, None, None); Some (KVB, 0, None, None); None; Some (KU, 0, None, None); Some (KU, 0, None, None)].
Proof. split; [apply (legalb_ok 5 5); [apply wf_empty|]|]; vm_compute; reflexivity. Qed.
Definition ex_stale : list op := [ ONewTree KB 0; ONewUniform (Some 0) (Some 0); ONewUniform (Some 0) (Some 0); OUnrefUniform false 1 ].
Example C35_stale_example : legal 5 empty_heap ex_stale /\ execs 5 (ex_stale ++ [ODelUniform 1]) empty_heap = Err EAssert.
Proof. split; [apply (legalb_ok 5 5); [apply wf_empty|]|]; vm_compute; reflexivity. Qed.

Print Assumptions C28_history.
Print Assumptions C28_freed.
Print Assumptions C28_alive.
Print Assumptions C28_no_leak.
Print Assumptions C28_self_assign_refuted.
Print Assumptions C28_self_assign_h2_refuted.
Print Assumptions C28_null_son_refuted.
Print Assumptions C35_history.
Print Assumptions C35_stale_refuted.
