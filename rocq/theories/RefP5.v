(** * Reference counting: operations of the caller *)
From Coq Require Import Arith Lia List Bool.
From Verif Require Import Prog HmSpec HmP RefHeap RefSpec RefP RefP2 RefP3 RefP4.
Import ListNotations.

Definition nox : nat -> bool := fun _ => false.
Definition zero : nat -> nat := fun _ => 0.
Definition G (s : heap) : Prop := good s none2 nox zero.

(** Structures without references had none before or are new. *)
Definition zr (s s' : heap) : Prop := forall x n', hp s' x = Some n' -> nr n' = 0 -> x < nx s -> exists n, hp s x = Some n /\ nr n = 0.
(** Structures are created and get new references. *)
Definition grow (s s' : heap) : Prop := nx s <= nx s' /\
  (forall l n, hp s l = Some n -> exists n', hp s' l = Some n' /\ nk n' = nk n /\ nu n' = nu n) /\
  (forall l n', hp s' l = Some n' -> (nx s <= l /\ nu n' = None) \/ exists n, hp s l = Some n /\ nu n' = nu n /\ nr n <= nr n').
Lemma grow_refl s : grow s s.
Proof. split; [lia|]. split; [eauto|]. intros l n Hl. right. exists n. auto. Qed.
Lemma grow_trans s1 s2 s3 : grow s1 s2 -> grow s2 s3 -> grow s1 s3.
Proof.
  intros (A1 & A2 & A3) (B1 & B2 & B3). split; [lia|]. split.
  - intros l n Hl. destruct (A2 l n Hl) as (n2 & Hn2 & E1 & E2). destruct (B2 l n2 Hn2) as (n3 & Hn3 & F1 & F2). exists n3. repeat split; congruence.
  - intros l n3 Hl. destruct (B3 l n3 Hl) as [(Q1 & Q2)|(n2 & Hn2 & F1 & F2)]; [left; split; [lia|exact Q2]|].
    destruct (A3 l n2 Hn2) as [(Q1 & Q2)|(n & Hn & E1 & E2)]; [left; split; [exact Q1|congruence]|right; exists n; repeat split; [exact Hn|congruence|lia]].
Qed.
Lemma grow_zr s s' : grow s s' -> zr s s'.
Proof. intros (_ & _ & H) x n' Hx Hr Hlt. destruct (H x n' Hx) as [(Q & _)|(n & Hn & _ & Q)]; [lia|]. exists n. split; [exact Hn|lia]. Qed.
Lemma grow_live s s' x k : grow s s' -> live s x k -> live s' x k.
Proof. intros (_ & H & _) (n & Hn & Hk). destruct (H x n Hn) as (n' & Hn' & E & _). exists n'. split; [exact Hn'|congruence]. Qed.

(** ** Allocation *)
Lemma alloc_ok s k c : G s -> (forall i p, nth_error c i = Some p -> p = None) -> (k = KU -> length c = 2) -> (k = KH -> 2 <= length c) ->
  G (snd (alloc s k c)) /\ grow s (snd (alloc s k c)) /\ hp (snd (alloc s k c)) (nx s) = Some (Node k 0 c null null null None).
Proof.
  intros (Hi & Hl & Ho) Hc HU HH. set (n0 := Node k 0 c null null null None). set (s' := snd (alloc s k c)).
  assert (Hnew : hp s' (nx s) = Some n0) by (cbn; rewrite Nat.eqb_refl; reflexivity).
  assert (Hold : forall l, l <> nx s -> hp s' l = hp s l) by (intros l H; cbn; destruct (Nat.eqb_spec l (nx s)); [contradiction|reflexivity]).
  assert (Hfresh : hp s (nx s) = None).
  { destruct (hp s (nx s)) as [m|] eqn:E; [|reflexivity]. pose proof (iv_next _ _ _ Hi _ _ E). lia. }
  assert (Hin : forall l n, hp s l = Some n -> l <> nx s) by (intros l n H ->; congruence).
  assert (Hcnt : forall x, cnt s' none2 x = cnt s none2 x).
  { intros x. unfold cnt. change (nx s') with (S (nx s)). cbn [nsum]. rewrite Hnew.
    replace (ncnt (none2 (nx s)) (nc n0) x) with 0.
    - rewrite Nat.add_0_r. apply nsum_ext. intros p Hp. rewrite Hold by lia. reflexivity.
    - symmetry. unfold ncnt. apply nsum_zero. intros i _. unfold none2, hit. cbn [nc n0]. destruct (nth_error c i) as [q|] eqn:Eq; [|reflexivity]. rewrite (Hc i q Eq). reflexivity. }
  assert (Hlive : forall x k', live s x k' -> live s' x k') by (intros x k' (m & Hm & Hk); exists m; rewrite Hold by (eapply Hin; eauto); auto).
  split; [|split; [|exact Hnew]].
  - split; [constructor|split].
    + intros x n Hx. change (nx s') with (S (nx s)). destruct (Nat.eq_dec x (nx s)) as [->|Hne]; [lia|]. rewrite Hold in Hx by exact Hne. pose proof (iv_next _ _ _ Hi _ _ Hx). lia.
    + intros x n Hx. destruct (Nat.eq_dec x (nx s)) as [->|Hne]; [|rewrite Hold in Hx by exact Hne; exact (iv_shape _ _ _ Hi _ _ Hx)].
      rewrite Hnew in Hx. injection Hx as <-. unfold n0. repeat split; auto.
    + intros x n Hx. rewrite Hcnt. destruct (Nat.eq_dec x (nx s)) as [->|Hne]; [|rewrite Hold in Hx by exact Hne; exact (iv_refs _ _ _ Hi _ _ Hx)].
      rewrite Hnew in Hx. injection Hx as <-. cbn [nr n0]. unfold zero. rewrite Nat.add_0_r. symmetry. unfold cnt. apply nsum_zero. intros p _.
      destruct (hp s p) as [m|] eqn:Em; [|reflexivity]. unfold ncnt. apply nsum_zero. intros i _. unfold none2, hit. destruct (nth_error (nc m) i) as [[y|]|] eqn:Ei; try reflexivity.
      destruct (Nat.eqb_spec y (nx s)) as [->|]; [|reflexivity]. destruct (iv_points _ _ _ Hi _ _ _ _ Em Ei eq_refl) as (q & Hq & _). congruence.
    + intros p n i t Hp Ht HE. destruct (Nat.eq_dec p (nx s)) as [->|Hne].
      * rewrite Hnew in Hp. injection Hp as <-. cbn in Ht. specialize (Hc _ _ Ht). discriminate.
      * rewrite Hold in Hp by exact Hne. apply Hlive. exact (iv_points _ _ _ Hi _ _ _ _ Hp Ht HE).
    + intros t Ht. unfold zero in Ht. lia.
    + intros b n sd Hb Hk. destruct (Nat.eq_dec b (nx s)) as [->|Hne].
      * rewrite Hnew in Hb. injection Hb as <-. exists []. split; [constructor|]. split; [|reflexivity]. intros u. split; [contradiction|]. intros (_ & (m & Hm & Hp) & _).
        destruct (Nat.eq_dec u (nx s)) as [->|Hne]; [rewrite Hnew in Hm; injection Hm as <-; cbn in Hp; specialize (Hc _ _ Hp); discriminate|].
        rewrite Hold in Hm by exact Hne. destruct (iv_points _ _ _ Hi _ _ _ _ Hm Hp eq_refl) as (q & Hq & _). congruence.
      * rewrite Hold in Hb by exact Hne. destruct (Hl b n sd Hb Hk) as (l & A1 & A2 & A3). exists l. split; [exact A1|]. split.
        -- intros u. rewrite A2. split; intros (Q1 & Q2 & Q3).
           ++ split; [apply Hlive, Q1|]. split; [|exact Q3]. destruct Q2 as (m & Hm & Hp). exists m. rewrite Hold by (eapply Hin; eauto). auto.
           ++ assert (Hu : u <> nx s).
              { intros ->. destruct Q2 as (m & Hm & Hp). rewrite Hnew in Hm. injection Hm as <-. cbn in Hp. specialize (Hc _ _ Hp). discriminate. }
              unfold live, points in Q1, Q2. rewrite Hold in Q1, Q2 by exact Hu. auto.
        -- eapply chain_ext; [|exact A3]. intros u Hu. apply A2 in Hu as ((m & Hm & _) & _). unfold next_of, prev_of. rewrite Hold by (eapply Hin; eauto). auto.
    + destruct Ho as (O1 & O2 & O3). 
      assert (Old : forall x n u, hp s' x = Some n -> nu n = Some u -> hp s x = Some n).
      { intros x n u Hx Hu. destruct (Nat.eq_dec x (nx s)) as [->|Hne]; [rewrite Hnew in Hx; injection Hx as <-; discriminate|]. rewrite Hold in Hx by exact Hne. exact Hx. }
      split; [|split; [|discriminate]].
      * intros x n u Hx Hu HX. apply Hlive. exact (O1 x n u (Old _ _ _ Hx Hu) Hu HX).
      * intros x n y m u Hx Hu Hy Hu'. exact (O2 x n y m u (Old _ _ _ Hx Hu) Hu (Old _ _ _ Hy Hu') Hu').
  - split; [cbn; lia|]. split.
    + intros l n Hn. exists n. rewrite Hold by (eapply Hin; eauto). auto.
    + intros l n Hn. destruct (Nat.eq_dec l (nx s)) as [->|Hne].
      * left. rewrite Hnew in Hn. injection Hn as <-. auto.
      * right. rewrite Hold in Hn by exact Hne. exists n. auto.
Qed.

(** ** Completeness excludes cycles *)
Inductive reach (s : heap) (x : nat) : nat -> Prop :=
| reach_refl : reach s x x
| reach_slot y n i z : reach s x y -> hp s y = Some n -> nth_error (nc n) i = Some (Some z) -> reach s x z
| reach_u y n z : reach s x y -> hp s y = Some n -> nu n = Some z -> reach s x z.
Lemma reach_cpl s E d x y : reach s x y -> cpl s E d x -> exists d', cpl s E d' y.
Proof.
  intros H Hc. induction H as [|y n i z _ (d' & IH) Hn Hz|y n z _ (d' & IH) Hn Hz]; [eauto| |].
  - destruct d' as [|d']; [contradiction|]. destruct IH as (m & Hm & C1 & _). rewrite Hn in Hm. injection Hm as <-. destruct (C1 i _ Hz) as (_ & z' & E1 & Q). injection E1 as <-. eauto.
  - destruct d' as [|d']; [contradiction|]. destruct IH as (m & Hm & _ & C2). rewrite Hn in Hm. injection Hm as <-. eauto.
Qed.
Lemma cpl_cycle s o n i x : hp s o = Some n -> nth_error (nc n) i = Some (Some x) -> forall d, cpl s none2 d x -> cpl s (excl none2 o i) d x.
Proof.
  intros Ho Hx d. induction d as [d IH] using (well_founded_induction lt_wf). intros Hc.
  assert (Inner : forall e y, e <= d -> reach s x y -> cpl s none2 e y -> cpl s (excl none2 o i) e y).
  { induction e as [|e IHe]; intros y He Hy H; [exact H|]. destruct H as (m & Hm & C1 & C2). exists m. split; [exact Hm|]. split.
    - intros j p Hp. destruct (C1 j p Hp) as (_ & z & -> & Hz). split.
      + destruct (Nat.eq_dec y o) as [->|Hne]; [destruct (Nat.eq_dec j i) as [->|Hji]|].
        * exfalso. rewrite Ho in Hm. injection Hm as <-. rewrite Hx in Hp. injection Hp as <-.
          pose proof (IH e ltac:(lia) Hz) as Q. destruct (reach_cpl _ _ _ _ _ Hy Q) as ([|d'] & Q'); [contradiction|]. destruct Q' as (m' & Hm' & D1 & _). rewrite Ho in Hm'. injection Hm' as <-.
          destruct (D1 i _ Hx) as (D & _). rewrite excl_same in D. discriminate.
        * rewrite excl_other by congruence. reflexivity.
        * rewrite excl_other by congruence. reflexivity.
      + exists z. split; [reflexivity|]. apply IHe; [lia|eapply reach_slot; eauto|exact Hz].
    - intros u Hu. apply IHe; [lia|eapply reach_u; eauto|exact (C2 u Hu)]. }
  apply Inner; [lia|constructor|exact Hc].
Qed.

(** ** Assignments *)
Lemma good_excl_none s E X pend o n i : good s E X pend -> hp s o = Some n -> nth_error (nc n) i = Some None -> E o i = false -> good s (excl E o i) X pend.
Proof.
  intros (Hi & Hl & Ho) Hn Hs HE. split; [constructor|split; [|exact Ho]].
  - apply Hi.
  - apply Hi.
  - intros x m Hx. rewrite (iv_refs _ _ _ Hi _ _ Hx), (cnt_excl s E o n i None x Hn (iv_next _ _ _ Hi _ _ Hn) Hs HE). cbn. lia.
  - intros p m j t Hp Ht HEj. destruct (excl_false _ _ _ _ _ HEj) as (Q & _). exact (iv_points _ _ _ Hi _ _ _ _ Hp Ht Q).
  - apply Hi.
  - intros b m sd Hb Hk. destruct (Hl b m sd Hb Hk) as (l & A1 & A2 & A3). exists l. split; [exact A1|]. split; [|exact A3]. intros u. rewrite A2.
    split; intros (Q1 & Q2 & Q3); (split; [exact Q1|split; [exact Q2|]]).
    + rewrite excl_other; [exact Q3|]. intros Q. injection Q as -> Q. destruct Q2 as (m' & Hm' & Hp). rewrite Q in Hp. congruence.
    + apply excl_false in Q3. tauto.
Qed.
Lemma linv_heq s s' E : (forall x, hp s' x = hp s x) -> linv s E -> linv s' E.
Proof.
  intros H Hl b n sd Hb Hk. rewrite H in Hb. destruct (Hl b n sd Hb Hk) as (l & A1 & A2 & A3). exists l. split; [exact A1|]. split.
  - intros u. rewrite A2. unfold live, points. rewrite H. reflexivity.
  - eapply chain_ext; [|exact A3]. intros u _. unfold next_of, prev_of. rewrite H. auto.
Qed.
Lemma lk_heq s s' : (forall x, hp s' x = hp s x) -> nx s' = nx s -> lk s s'.
Proof. intros H Hn. split; [exact Hn|]. intros x. rewrite H. destruct (hp s x); auto 6. Qed.

(** What an assignment changes *)
Definition asg (o i : nat) (t : option nat) (s s' : heap) : Prop := nx s' = nx s /\ forall l, match hp s l, hp s' l with
  | Some n, Some n' => nk n' = nk n /\ nu n' = nu n /\ nr n <= nr n' /\ nc n' = (if l =? o then lset (nc n) i t else nc n)
  | None, None => True
  | _, _ => False end.
Lemma asg_grow o i t s s' : asg o i t s s' -> grow s s'.
Proof.
  intros (H1 & H2). split; [lia|]. split.
  - intros l n Hl. specialize (H2 l). rewrite Hl in H2. destruct (hp s' l) as [n'|]; [|contradiction]. destruct H2 as (A1 & A2 & A3 & A4). eauto.
  - intros l n Hl. specialize (H2 l). rewrite Hl in H2. destruct (hp s l) as [n'|]; [|contradiction]. destruct H2 as (A1 & A2 & A3 & A4). right. exists n'. auto.
Qed.
Lemma asg_lk o i t s s' s'' : asg o i t s s' -> lk s' s'' -> asg o i t s s''.
Proof.
  intros (H1 & H2) (K1 & K2). split; [congruence|]. intros l. specialize (H2 l). specialize (K2 l). destruct (hp s l), (hp s' l), (hp s'' l); try contradiction; auto.
  destruct H2 as (A1 & A2 & A3 & A4), K2 as (B1 & B2 & B3 & B4 & _). repeat split; try congruence. all: lia.
Qed.
Lemma asg_at o i t s s' n : asg o i t s s' -> hp s o = Some n -> exists n', hp s' o = Some n' /\ nk n' = nk n /\ nu n' = nu n /\ nc n' = lset (nc n) i t.
Proof. intros (_ & H) Hn. specialize (H o). rewrite Hn, Nat.eqb_refl in H. destruct (hp s' o) as [n'|]; [|contradiction]. exists n'. tauto. Qed.

Definition assign (o i : nat) (t : option nat) (s : heap) : res heap :=
  s <~ update s o (fun n => with_c n i t) ;
  match t with Some y => update s y (fun n => with_r n (nr n + 1)) | None => Ok s end.
Lemma assign_ok s o i n t : good s (excl none2 o i) nox zero -> hp s o = Some n -> i < length (nc n) -> live_opt s t (target (nk n) i) ->
  exists s', assign o i t s = Ok s' /\ inv s' none2 zero /\ linv s' (excl none2 o i) /\ own s' nox /\ asg o i t s s'.
Proof.
  intros (Hi & Hl & Ho) Hn Hlen Ht. set (s1 := put s o (Some (with_c n i t))).
  assert (A1 : asg o i t s s1).
  { split; [reflexivity|]. intros l. destruct (Nat.eq_dec l o) as [->|Hne].
    - unfold s1. rewrite Hn, put_same, Nat.eqb_refl. auto.
    - unfold s1. rewrite put_other by exact Hne. apply Nat.eqb_neq in Hne. rewrite Hne. destruct (hp s l); auto. }
  unfold assign, update at 1, getn at 1. rewrite Hn. cbn [rbind]. fold s1. destruct t as [y|].
  - cbn [live_opt] in Ht. destruct Ht as (ny & Hy & Hky).
    assert (HyU : nk ny <> KU) by (rewrite Hky; unfold target; destruct (nk n); try discriminate; destruct (i <? 2); discriminate).
    set (sA := put s y (Some (with_r ny (nr ny + 1)))).
    assert (HnA : exists nA, hp sA o = Some nA /\ nk nA = nk n /\ nc nA = nc n).
    { destruct (Nat.eq_dec o y) as [->|Hne]; [rewrite Hn in Hy; injection Hy as <-; exists (with_r n (nr n + 1)); unfold sA; rewrite put_same; auto|]. exists n. unfold sA. rewrite put_other by exact Hne. auto. }
    destruct HnA as (nA & HnA & EkA & EcA).
    assert (HgA : good sA (excl none2 o i) nox (inc zero y)).
    { split; [|split].
      - apply (inv_with_r s _ zero); [exact Hi|exact Hy|exact HyU| |].
        + unfold inc, zero. rewrite Nat.eqb_refl. lia.
        + intros z Hz. unfold inc. apply Nat.eqb_neq in Hz. rewrite Hz. lia.
      - eapply linv_put; [exact Hl|exact Hy|exact HyU|]. intros m Em. injection Em as <-. auto.
      - eapply own_put; [exact Ho|exact Hy|exact HyU| |]; [intros m Em; injection Em as <-; auto|discriminate]. }
    destruct HgA as (HiA & HlA & HoA).
    assert (HlvA : live_opt sA (Some y) (target (nk nA) i)).
    { cbn. rewrite EkA. exists (with_r ny (nr ny + 1)). unfold sA. rewrite put_same. auto. }
    assert (H1y : exists ny1, hp s1 y = Some ny1 /\ forall x, hp (put s1 y (Some (with_r ny1 (nr ny1 + 1)))) x = hp (put sA o (Some (with_c nA i (Some y)))) x).
    { destruct (Nat.eq_dec y o) as [->|Hne].
      - rewrite Hn in Hy. injection Hy as <-. exists (with_c n i (Some o)). unfold s1. rewrite put_same. split; [reflexivity|]. unfold sA in HnA. rewrite put_same in HnA. injection HnA as <-.
        intros x. cbn. destruct (x =? o); reflexivity.
      - exists ny. unfold s1. rewrite put_other by exact Hne. split; [exact Hy|]. unfold sA in HnA. rewrite put_other in HnA by congruence. rewrite Hn in HnA. injection HnA as <-.
        intros x. cbn. destruct (Nat.eqb_spec x y) as [->|]; [|reflexivity]. apply Nat.eqb_neq in Hne. rewrite Hne. reflexivity. }
    destruct H1y as (ny1 & Hy1 & Heq). set (s2 := put s1 y (Some (with_r ny1 (nr ny1 + 1)))) in *.
    exists s2. split; [unfold update, getn; rewrite Hy1; reflexivity|].
    pose proof (lk_heq (put sA o (Some (with_c nA i (Some y)))) s2 Heq eq_refl) as HK.
    split; [|split; [|split]].
    + eapply lk_inv; [exact HK|]. apply inv_set; [exact HiA|exact HnA|rewrite EcA; exact Hlen|reflexivity|exact HlvA].
    + eapply linv_heq; [exact Heq|]. apply linv_set; assumption.
    + eapply lk_own; [exact HK|]. apply own_set; assumption.
    + destruct A1 as (_ & A1). split; [reflexivity|]. intros l. specialize (A1 l). unfold s2. destruct (Nat.eq_dec l y) as [->|Hne].
      * rewrite put_same. rewrite Hy1 in A1. destruct (hp s y); [|contradiction]. destruct A1 as (Q1 & Q2 & Q3 & Q4). cbn. repeat split; auto. lia.
      * rewrite put_other by exact Hne. exact A1.
  - exists s1. split; [reflexivity|]. split; [|split; [|split; [|exact A1]]].
    + apply inv_set; [exact Hi|exact Hn|exact Hlen|reflexivity|exact I].
    + apply linv_set; assumption.
    + apply own_set; assumption.
Qed.
Lemma ref_with_assign un o i t s n p s1 : hp s o = Some n -> nth_error (nc n) i = Some p -> match p with Some x => un x s | None => Ok s end = Ok s1 ->
  ref_with un o i t s = assign o i t s1.
Proof. intros Hn Hp H. unfold ref_with, assign. unfold getn at 1. rewrite Hn. cbn [rbind]. unfold slot. rewrite Hp. cbn [rbind]. rewrite H. reflexivity. Qed.

(** A null pointer gets a value. *)
Lemma ref_null_ok un s o i n t : G s -> hp s o = Some n -> nk n <> KU -> nth_error (nc n) i = Some None -> live_opt s t (target (nk n) i) ->
  exists s', ref_with un o i t s = Ok s' /\ G s' /\ asg o i t s s'.
Proof.
  intros Hg Hn Hk Hp Ht. assert (Hlen : i < length (nc n)) by (apply nth_error_Some; congruence).
  destruct (assign_ok s o i n t (good_excl_none s none2 nox zero o n i Hg Hn Hp eq_refl) Hn Hlen Ht) as (s' & R & Hi & Hl & Ho & Ha).
  exists s'. split; [rewrite (ref_with_assign un o i t s n None s Hn Hp eq_refl); exact R|]. split; [|exact Ha]. split; [exact Hi|]. split; [|exact Ho].
  destruct (asg_at _ _ _ _ _ _ Ha Hn) as (n' & Hn' & Ek & _). eapply linv_unexcl; [exact Hl|exact Hn'|]. left. congruence.
Qed.

(** Structures that are held survive. *)
Lemma held_ok A s s1 o i k pend : inv s none2 zero -> evo A s s1 -> inv s1 (excl none2 o i) pend -> (forall k' j, target k' j = k -> k' <> k -> A k' = false) ->
  forall y, held s o i y -> live s y k -> exists n, hp s1 y = Some n.
Proof.
  intros Hi He Hi1 HA y Hh. induction Hh as [x n Hx Hr HU|p n j x Hp Hk Hx Hne|p n j x Hp Hk Hh IH Hx Hne]; intros Hl.
  - exists n. apply (ev_zero _ _ _ He); assumption.
  - destruct Hl as (nx0 & Hnx & Hkx). destruct (iv_points _ _ _ Hi _ _ _ _ Hp Hx eq_refl) as (m & Hm & Hkm). rewrite Hnx in Hm. injection Hm as <-.
    assert (Hp1 : hp s1 p = Some n) by (apply (ev_kind _ _ _ He); [exact Hp|apply (HA _ j); congruence]).
    destruct (iv_points _ _ _ Hi1 _ _ _ _ Hp1 Hx) as (m & Hm & _); [rewrite excl_other by exact Hne; reflexivity|eauto].
  - destruct Hl as (nx0 & Hnx & Hkx). destruct (iv_points _ _ _ Hi _ _ _ _ Hp Hx eq_refl) as (m & Hm & Hkm). rewrite Hnx in Hm. injection Hm as <-.
    destruct IH as (n1 & Hn1); [exists n; split; congruence|]. destruct (ev_same _ _ _ He _ _ _ Hp Hn1) as (E1 & E2 & _). rewrite <- E2 in Hx.
    destruct (iv_points _ _ _ Hi1 _ _ _ _ Hn1 Hx) as (m & Hm & _); [rewrite excl_other by exact Hne; reflexivity|eauto].
Qed.

Lemma evo_zr A s s' : evo A s s' -> zr s s'.
Proof. intros He x n' Hx Hr _. destruct (hp s x) as [n|] eqn:E; [|rewrite (ev_none _ _ _ He _ E) in Hx; discriminate]. exists n. split; [reflexivity|]. destruct (ev_same _ _ _ He _ _ _ E Hx) as (_ & _ & _ & Q). auto. Qed.
Lemma zr_trans s1 s2 s3 : zr s1 s2 -> zr s2 s3 -> nx s1 <= nx s2 -> zr s1 s3.
Proof. intros H1 H2 Hn x n Hx Hr Hlt. destruct (H2 x n Hx Hr) as (n2 & Hn2 & Hr2); [lia|]. eauto. Qed.

Lemma ref_with_ok A k fuel un s o i t : unspec A k fuel un -> (forall k' j, target k' j = k -> k' <> k -> A k' = false) -> G s -> ref_ok fuel s k o i t ->
  exists s', ref_with un o i t s = Ok s' /\ G s' /\ zr s s'.
Proof.
  intros Hun HA Hg (n & p & Hn & HkU & Hp & Hkt & Hc & Hho & Ht). pose proof Hg as (Hi & Hl & Ho).
  destruct p as [x|].
  - pose proof (iv_points _ _ _ Hi _ _ _ _ Hn Hp eq_refl) as Hlx. rewrite Hkt in Hlx.
    destruct (Hun x s (excl none2 o i) nox (inc zero x)) as (s1 & R1 & Hg1 & He).
    + eapply good_excl; eauto.
    + unfold inc. rewrite Nat.eqb_refl. lia.
    + exact Hlx.
    + eapply cpl_cycle; eauto. apply cpl_complete, Hc.
    + assert (Hg1' : good s1 (excl none2 o i) nox zero).
      { eapply good_pend; [exact Hg1|]. intros z. unfold dec, inc, zero. destruct (z =? x); lia. }
      pose proof Hg1' as (Hi1 & _).
      assert (Ho1 : exists n1, hp s1 o = Some n1).
      { destruct (Nat.eq_dec 0 0) as [_|]; [|lia]. assert (Hdec : nk n = k \/ nk n <> k) by (destruct (nk n), k; auto; right; discriminate). destruct Hdec as [Hk|Hk].
        - apply (held_ok A s s1 o i k zero Hi He Hi1 HA o (Hho Hk)). exists n. auto.
        - exists n. apply (ev_kind _ _ _ He); [exact Hn|apply (HA _ i); assumption]. }
      destruct Ho1 as (n1 & Hn1). destruct (ev_same _ _ _ He _ _ _ Hn Hn1) as (E1 & E2 & _).
      destruct (assign_ok s1 o i n1 t Hg1' Hn1) as (s' & R & Hi' & Hl' & Ho' & Ha).
      * rewrite E2. apply nth_error_Some. congruence.
      * destruct t as [y|]; [|exact I]. cbn. rewrite E1, Hkt. destruct Ht as (Hly & Hhy). apply (evo_live A s s1 y k He Hly). destruct (held_ok A s s1 o i k zero Hi He Hi1 HA y Hhy Hly) as (m & Hm). congruence.
      * exists s'. split; [rewrite (ref_with_assign un o i t s n (Some x) s1 Hn Hp R1); exact R|]. split.
        -- split; [exact Hi'|]. split; [|exact Ho']. destruct (asg_at _ _ _ _ _ _ Ha Hn1) as (n' & Hn' & Ek & _). eapply linv_unexcl; [exact Hl'|exact Hn'|]. left. congruence.
        -- eapply zr_trans; [exact (evo_zr _ _ _ He)|exact (grow_zr _ _ (asg_grow _ _ _ _ _ Ha))|rewrite (ev_nx _ _ _ He); lia].
  - destruct (ref_null_ok un s o i n t Hg Hn HkU Hp) as (s' & R & Hg' & Ha).
    + rewrite Hkt. destruct t; [exact (proj1 Ht)|exact I].
    + exists s'. split; [exact R|]. split; [exact Hg'|exact (grow_zr _ _ (asg_grow _ _ _ _ _ Ha))].
Qed.

(** ** Uniform matrices *)
Lemma link_null_ok fuel s u n sd y : G s -> hp s u = Some n -> nk n = KU -> nth_error (nc n) (side sd) = Some None -> live s y KB ->
  exists s', (s <~ ref_tree fuel u (side sd) (Some y) s ; link sd u y s) = Ok s' /\ G s' /\ asg u (side sd) (Some y) s s'.
Proof.
  intros Hg Hn Hk Hp Hy. assert (Hlen : side sd < length (nc n)) by (apply nth_error_Some; congruence).
  destruct (assign_ok s u (side sd) n (Some y) (good_excl_none s none2 nox zero u n (side sd) Hg Hn Hp eq_refl) Hn Hlen) as (s1 & R & Hi & Hl & Ho & Ha); [cbn; rewrite Hk; exact Hy|].
  destruct (asg_at _ _ _ _ _ _ Ha Hn) as (n' & Hn' & Ek & _ & Ec).
  destruct (link_ok s1 none2 nox zero u n' sd y Hi Hl Ho Hn' ltac:(congruence)) as (s2 & R2 & Hg2 & K2); [rewrite Ec; apply lset_same; exact Hlen|reflexivity|].
  exists s2. split; [unfold ref_tree; rewrite (ref_with_assign _ u (side sd) (Some y) s n None s Hn Hp eq_refl), R; exact R2|]. split; [exact Hg2|]. eapply asg_lk; eauto.
Qed.
Lemma ptr_eqb_spec p q : reflect (p = q) (ptr_eqb p q).
Proof. destruct p as [x|], q as [y|]; cbn; try (constructor; congruence). destruct (Nat.eqb_spec x y); constructor; congruence. Qed.
Lemma ref_uniform_null fuel s u n sd y : G s -> hp s u = Some n -> nk n = KU -> nth_error (nc n) (side sd) = Some None -> live s y KB ->
  exists s', ref_uniform fuel sd u (Some y) s = Ok s' /\ G s' /\ asg u (side sd) (Some y) s s'.
Proof.
  intros Hg Hn Hk Hp Hy. destruct (link_null_ok fuel s u n sd y Hg Hn Hk Hp Hy) as (s' & R & H). exists s'. split; [|exact H].
  unfold ref_uniform, getn, slot. rewrite Hn. cbn [rbind]. rewrite Hp. cbn [rbind ptr_eqb]. exact R.
Qed.
Lemma held_lk s s' o i y : lk s s' -> held s o i y -> held s' o i y.
Proof.
  intros K H. induction H as [x n Hx Hr HU|p n j x Hp Hk Hx Hne|p n j x Hp Hk Hh IH Hx Hne].
  - destruct (lk_fwd _ _ _ _ K Hx) as (n' & Hn' & A1 & A2 & _). eapply held_new; [exact Hn'| |]; congruence.
  - destruct (lk_fwd _ _ _ _ K Hp) as (n' & Hn' & A1 & A2 & A3 & _). eapply (held_out _ _ _ p n' j); try congruence. 
  - destruct (lk_fwd _ _ _ _ K Hp) as (n' & Hn' & A1 & A2 & A3 & _). eapply (held_in _ _ _ p n' j); try congruence; assumption.
Qed.
Lemma evob_zr A u s s' n : evob A u s s' -> hp s u = Some n -> nr n = 0 -> zr s s'.
Proof.
  intros He Hu Hr x n' Hx Hr' _. destruct (Nat.eq_dec x u) as [->|Hne]; [eauto|]. destruct (hp s x) as [m|] eqn:E; [|rewrite (eb_none _ _ _ _ He _ Hne E) in Hx; discriminate].
  exists m. split; [reflexivity|]. destruct (eb_same _ _ _ _ He _ _ _ Hne E Hx) as (_ & _ & _ & Q). auto.
Qed.
Lemma only_target k' j : target k' j = KB -> k' <> KB -> only KB k' = false.
Proof. destruct k'; cbn; congruence. Qed.

Lemma ref_uniform_ok fuel s sd u t : G s -> op_ok fuel s (ORefUniform sd u t) -> exists s', ref_uniform fuel sd u t s = Ok s' /\ G s' /\ zr s s'.
Proof.
  intros Hg (n & p & Hn & Hk & Hp & H). pose proof Hg as (Hi & Hl & Ho).
  unfold ref_uniform, getn at 1. rewrite Hn. cbn [rbind]. unfold slot. rewrite Hp. cbn [rbind]. destruct (ptr_eqb_spec p t) as [E|E].
  - exists s. split; [reflexivity|]. split; [exact Hg|apply grow_zr, grow_refl].
  - destruct H as [H|(Hc & Ht)]; [contradiction|]. destruct p as [b|].
    + destruct (unref_uniform_ok fuel s none2 nox zero u n sd b Hg Hn Hk Hp eq_refl (cpl_complete _ _ _ Hc)) as (s3 & s4 & R & Hg4 & K3 & He & U4 & Hg4x & Hev). rewrite R. cbn [rbind].
      assert (Hr0 : nr n = 0) by (destruct (iv_shape _ _ _ Hi _ _ Hn) as (_ & _ & _ & _ & Q); auto). pose proof (evob_zr _ _ _ _ _ Hev Hn Hr0) as Hz.
      set (s5 := put s4 u (Some (with_c n (side sd) None))) in *. assert (Hlen : side sd < length (nc n)) by (apply nth_error_Some; congruence).
      destruct t as [y|]; [|exists s5; auto].
      destruct Ht as (Hly & Hhy). assert (Hly5 : live s5 y KB).
      { pose proof Hg4x as (Hi4 & _). assert (Hly3 : live s3 y KB) by (apply (lk_live _ _ _ _ K3), Hly). 
        destruct (held_ok (only KB) s3 s4 u (side sd) KB zero (lk_inv _ _ _ _ K3 Hi) He Hi4 only_target y (held_lk _ _ _ _ _ K3 Hhy) Hly3) as (m & Hm).
        assert (Hl4 : live s4 y KB) by (apply (evo_live _ _ _ _ _ He Hly3); congruence). apply (set_live s4 u n (side sd) None y KB U4), Hl4. }
      destruct (link_null_ok fuel s5 u (with_c n (side sd) None) sd y Hg4) as (s' & R' & Hg' & Ha); [apply put_same|exact Hk|cbn; apply lset_same; exact Hlen|exact Hly5|].
      exists s'. split; [exact R'|]. split; [exact Hg'|]. eapply zr_trans; [exact Hz|exact (grow_zr _ _ (asg_grow _ _ _ _ _ Ha))|rewrite (eb_nx _ _ _ _ Hev); lia].
    + cbn [rbind]. destruct t as [y|]; [|contradiction]. destruct (link_null_ok fuel s u n sd y Hg Hn Hk Hp (proj1 Ht)) as (s' & R' & Hg' & Ha).
      exists s'. split; [exact R'|]. split; [exact Hg'|]. exact (grow_zr _ _ (asg_grow _ _ _ _ _ Ha)).
Qed.

Lemma unref_slot_of fuel s sd u n : hp s u = Some n -> unref_ok fuel s sd u -> nk n = KU /\ slot_ok s none2 fuel n sd.
Proof.
  intros Hn (m & p & Hm & Hk & Hp & H). rewrite Hn in Hm. injection Hm as <-. split; [exact Hk|]. exists p. split; [exact Hp|]. destruct p; [apply cpl_complete, H|exact H].
Qed.
Lemma unref_op_ok fuel s sd u : G s -> unref_ok fuel s sd u -> exists s', unref_uniform fuel sd u s = Ok s' /\ G s' /\ zr s s'.
Proof.
  intros Hg Hok. pose proof Hok as (n & _ & Hn & _). destruct (unref_slot_of fuel s sd u n Hn Hok) as (Hk & Hs). pose proof Hg as (Hi & _).
  destruct (unref_uniform_any fuel s none2 nox zero u n sd Hg Hn Hk eq_refl Hs) as (s' & n' & R & Hg' & He & _). exists s'. split; [exact R|]. split; [exact Hg'|].
  eapply evob_zr; [exact He|exact Hn|]. destruct (iv_shape _ _ _ Hi _ _ Hn) as (_ & _ & _ & _ & Q). auto.
Qed.
Lemma del_uniform_op_ok fuel s u : G s -> unref_ok fuel s false u -> unref_ok fuel s true u -> (forall x n, hp s x = Some n -> nu n <> Some u) ->
  exists s', del_uniform fuel u s = Ok s' /\ G s' /\ zr s s'.
Proof.
  intros Hg H1 H2 HX. pose proof H1 as (n & _ & Hn & _). destruct (unref_slot_of fuel s false u n Hn H1) as (Hk & Hs1). destruct (unref_slot_of fuel s true u n Hn H2) as (_ & Hs2).
  destruct (del_uniform_ok fuel s none2 nox zero u n Hg Hn Hk) as (s' & R & Hg' & He & _).
  - reflexivity.
  - intros [|]; assumption.
  - intros x m Hx Hm. exfalso. exact (HX x m Hx Hm).
  - exists s'. split; [exact R|]. split; [exact Hg'|exact (evo_zr _ _ _ He)].
Qed.

Lemma asg_slot o i t s s' n j : asg o i t s s' -> hp s o = Some n -> j <> i -> exists n', hp s' o = Some n' /\ nk n' = nk n /\ nu n' = nu n /\ nth_error (nc n') j = nth_error (nc n) j.
Proof. intros Ha Hn Hj. destruct (asg_at _ _ _ _ _ _ Ha Hn) as (n' & Hn' & E1 & E2 & E3). exists n'. repeat split; auto. rewrite E3. apply lset_other, Hj. Qed.

Lemma nth_repeat_none n : forall i (p : option nat), nth_error (repeat None n) i = Some p -> p = None.
Proof. intros i p H. apply nth_error_In in H. exact (repeat_spec _ _ _ H). Qed.
Lemma new_uniform_ok fuel s r c : G s -> live s r KB -> live s c KB -> exists s', new_uniform fuel (Some r) (Some c) s = Ok (nx s, s') /\ G s' /\ grow s s' /\ live s' (nx s) KU.
Proof.
  intros Hg Hr Hc. unfold new_uniform. cbn [alloc].
  destruct (alloc_ok s KU [None; None] Hg) as (Hg0 & Hgr0 & Hn0); [exact (nth_repeat_none 2)|reflexivity|discriminate|].
  cbn [alloc snd] in Hg0, Hgr0, Hn0. set (u := nx s) in *. set (s0 := Heap _ _) in *. clearbody s0.
  destruct (ref_uniform_null fuel s0 u _ false r Hg0 Hn0 eq_refl eq_refl (grow_live _ _ _ _ Hgr0 Hr)) as (s1 & R1 & Hg1 & Ha1).
  destruct (asg_slot _ _ _ _ _ _ 1 Ha1 Hn0 ltac:(cbn; lia)) as (n1 & Hn1 & Ek1 & _ & Es1). pose proof (grow_trans _ _ _ Hgr0 (asg_grow _ _ _ _ _ Ha1)) as Hgr1.
  destruct (ref_uniform_null fuel s1 u n1 true c Hg1 Hn1 Ek1 Es1 (grow_live _ _ _ _ Hgr1 Hc)) as (s2 & R2 & Hg2 & Ha2). pose proof (grow_trans _ _ _ Hgr1 (asg_grow _ _ _ _ _ Ha2)) as Hgr2.
  exists s2. rewrite R1. cbn [rbind]. rewrite R2. cbn [rbind]. destruct (grow_live _ _ _ _ Hgr2 Hr) as (nr2 & Hr2 & _). destruct (grow_live _ _ _ _ Hgr2 Hc) as (nc2 & Hc2 & _).
  unfold getn. rewrite Hr2. cbn [rbind]. rewrite Hc2. cbn [rbind]. split; [reflexivity|]. split; [exact Hg2|]. split; [exact Hgr2|].
  destruct (asg_at _ _ _ _ _ _ Ha2 Hn1) as (n2 & Hn2 & E & _). exists n2. split; [exact Hn2|rewrite E; exact Ek1].
Qed.
Lemma new_h2_ok fuel s rb cb m : G s -> live_opt s rb KB -> live_opt s cb KB -> exists s' n', new_h2 fuel rb cb m s = Ok (nx s, s') /\ G s' /\ grow s s' /\ hp s' (nx s) = Some n' /\ nk n' = KH /\ nu n' = None.
Proof.
  intros Hg Hr Hc. unfold new_h2. cbn [alloc].
  destruct (alloc_ok s KH (None :: None :: repeat None m) Hg) as (Hg0 & Hgr0 & Hn0); [intros [|[|i]] p Hp; cbn in Hp; try congruence; eapply nth_repeat_none; exact Hp|discriminate|cbn; lia|].
  cbn [alloc snd] in Hg0, Hgr0, Hn0. set (h := nx s) in *. set (s0 := Heap _ _) in *. clearbody s0.
  assert (Lo : forall s' t, grow s s' -> live_opt s t KB -> live_opt s' t KB) by (intros s' [t|] Hgr Ht; [exact (grow_live _ _ _ _ Hgr Ht)|exact I]).
  destruct (ref_null_ok (unref_tree fuel) s0 h 0 _ rb Hg0 Hn0) as (s1 & R1 & Hg1 & Ha1); [discriminate|reflexivity|exact (Lo _ _ Hgr0 Hr)|].
  destruct (asg_slot _ _ _ _ _ _ 1 Ha1 Hn0 ltac:(lia)) as (n1 & Hn1 & Ek1 & Eu1 & Es1). pose proof (grow_trans _ _ _ Hgr0 (asg_grow _ _ _ _ _ Ha1)) as Hgr1.
  cbn [nk nu nc nth_error] in Ek1, Eu1, Es1.
  destruct (ref_null_ok (unref_tree fuel) s1 h 1 n1 cb Hg1 Hn1) as (s2 & R2 & Hg2 & Ha2); [rewrite Ek1; discriminate|exact Es1|rewrite Ek1; exact (Lo _ _ Hgr1 Hc)|].
  destruct (asg_at _ _ _ _ _ _ Ha2 Hn1) as (n2 & Hn2 & E1 & E2 & _). pose proof (grow_trans _ _ _ Hgr1 (asg_grow _ _ _ _ _ Ha2)) as Hgr2.
  exists s2, n2. unfold ref_tree. rewrite R1. cbn [rbind]. rewrite R2. cbn [rbind]. split; [reflexivity|]. split; [exact Hg2|]. split; [exact Hgr2|]. repeat split; congruence.
Qed.
Lemma with_u_ok s h n u : G s -> hp s h = Some n -> nk n = KH -> nu n = None -> live s u KU -> (forall x m, hp s x = Some m -> nu m <> Some u) -> G (put s h (Some (with_u n (Some u)))).
Proof.
  intros (Hi & Hl & Ho) Hn Hk Hnu Hu HX. set (s' := put s h (Some (with_u n (Some u)))).
  assert (Back : forall x m, hp s' x = Some m -> exists m0, hp s x = Some m0 /\ nk m = nk m0 /\ nr m = nr m0 /\ nc m = nc m0 /\ nl m = nl m0 /\ (x <> h -> nu m = nu m0)).
  { intros x m Hx. unfold s' in Hx. destruct (Nat.eq_dec x h) as [->|Hne].
    - rewrite put_same in Hx. injection Hx as <-. exists n. cbn. repeat split; auto. congruence.
    - rewrite put_other in Hx by exact Hne. exists m. auto 8. }
  assert (Fwd : forall x k, live s x k -> live s' x k).
  { intros x k (m & Hm & Hkm). unfold live, s'. destruct (Nat.eq_dec x h) as [->|Hne]; [exists (with_u n (Some u)); rewrite put_same; cbn; split; [reflexivity|congruence]|exists m; rewrite put_other by exact Hne; auto]. }
  assert (Hc : forall x, cnt s' none2 x = cnt s none2 x).
  { intros x. apply cnt_ext; [reflexivity|]. intros p _. unfold s'. destruct (Nat.eq_dec p h) as [->|Hne]; [rewrite put_same, Hn; auto|]. rewrite put_other by exact Hne. destruct (hp s p); auto. }
  split; [constructor|split].
  - intros x m Hx. destruct (Back x m Hx) as (m0 & Hm0 & _). exact (iv_next _ _ _ Hi _ _ Hm0).
  - intros x m Hx. destruct (Back x m Hx) as (m0 & Hm0 & A1 & A2 & A3 & A4 & A5). destruct (iv_shape _ _ _ Hi _ _ Hm0) as (B1 & B2 & B3 & B4 & B5). unfold shape. rewrite A1, A2, A3, A4.
    repeat split; auto. intros Q. rewrite A5; [auto|]. intros ->. congruence.
  - intros x m Hx. destruct (Back x m Hx) as (m0 & Hm0 & A1 & A2 & _). rewrite Hc, A2. exact (iv_refs _ _ _ Hi _ _ Hm0).
  - intros p m i t Hp Ht HE. destruct (Back p m Hp) as (m0 & Hm0 & A1 & A2 & A3 & _). rewrite A1. rewrite A3 in Ht. apply Fwd. exact (iv_points _ _ _ Hi _ _ _ _ Hm0 Ht HE).
  - intros t Ht. unfold zero in Ht. lia.
  - eapply linv_put; [exact Hl|exact Hn|congruence|]. intros m Em. injection Em as <-. auto.
  - destruct Ho as (O1 & O2 & _). split; [|split; [|discriminate]].
    + intros x m v Hx Hv _. apply Fwd. destruct (Nat.eq_dec x h) as [->|Hne].
      * unfold s' in Hx. rewrite put_same in Hx. injection Hx as <-. cbn in Hv. injection Hv as <-. exact Hu.
      * unfold s' in Hx. rewrite put_other in Hx by exact Hne. exact (O1 x m v Hx Hv eq_refl).
    + intros x m y m2 v Hx Hv Hy Hv2. unfold s' in Hx, Hy. destruct (Nat.eq_dec x h) as [->|Hne], (Nat.eq_dec y h) as [->|Hne2]; [reflexivity| | |].
      * rewrite put_same in Hx. injection Hx as <-. cbn in Hv. injection Hv as <-. rewrite put_other in Hy by exact Hne2. exfalso. exact (HX _ _ Hy Hv2).
      * rewrite put_same in Hy. injection Hy as <-. cbn in Hv2. injection Hv2 as <-. rewrite put_other in Hx by exact Hne. exfalso. exact (HX _ _ Hx Hv).
      * rewrite put_other in Hx by exact Hne. rewrite put_other in Hy by exact Hne2. exact (O2 x m y m2 v Hx Hv Hy Hv2).
Qed.
Lemma new_uniform_h2_ok fuel s r c : G s -> live s r KB -> live s c KB -> exists s', new_uniform_h2 fuel (Some r) (Some c) s = Ok (nx s, s') /\ G s' /\ zr s s'.
Proof.
  intros Hg Hr Hc. destruct (new_h2_ok fuel s (Some r) (Some c) 0 Hg Hr Hc) as (s1 & n1 & R1 & Hg1 & Hgr1 & Hn1 & Hk1 & Hu1).
  destruct (new_uniform_ok fuel s1 r c Hg1 (grow_live _ _ _ _ Hgr1 Hr) (grow_live _ _ _ _ Hgr1 Hc)) as (s2 & R2 & Hg2 & Hgr2 & Hlu).
  pose proof Hgr2 as (_ & F2 & B2). destruct (F2 _ _ Hn1) as (n2 & Hn2 & E1 & E2).
  unfold new_uniform_h2. rewrite R1. cbn [rbind]. rewrite R2. cbn [rbind]. unfold update, getn. rewrite Hn2. cbn [rbind].
  eexists. split; [reflexivity|]. split.
  - eapply with_u_ok; [exact Hg2|exact Hn2|congruence|congruence|exact Hlu|]. intros x m Hx Hm. destruct (B2 x m Hx) as [(_ & Q)|(m0 & Hm0 & Q & _)]; [congruence|].
    pose proof Hg1 as (Hi1 & _ & O1 & _). destruct (O1 x m0 (nx s1) Hm0 ltac:(congruence) eq_refl) as (q & Hq & _). pose proof (iv_next _ _ _ Hi1 _ _ Hq). lia.
  - intros x n Hx Hrx Hlt. pose proof Hg as (Hi & _). destruct (Nat.eq_dec x (nx s)) as [->|Hne]; [lia|]. rewrite put_other in Hx by exact Hne. exact (grow_zr _ _ (grow_trans _ _ _ Hgr1 Hgr2) x n Hx Hrx Hlt).
Qed.

(** ** Every operation *)
Lemma put_none_zr A s s' x : evo A s s' -> zr s (put s' x None).
Proof. intros He y n' Hy Hr Hlt. destruct (Nat.eq_dec y x) as [->|Hne]; [rewrite put_same in Hy; discriminate|]. rewrite put_other in Hy by exact Hne. exact (evo_zr _ _ _ He y n' Hy Hr Hlt). Qed.
Theorem exec_ok fuel s o : G s -> op_ok fuel s o -> exists s', exec fuel o s = Ok s' /\ G s' /\ zr s s'.
Proof.
  intros Hg Hok. destruct o as [k|k n|rb cb|rb cb n|rb cb|o i t|o i t|sd u t|sd u|x|u|x]; cbn [op_ok exec] in *.
  - destruct (alloc_ok s k [None] Hg) as (Hg' & Hgr & _).
    + exact (nth_repeat_none 1).
    + intros ->. destruct Hok as [Q|[Q|[Q|Q]]]; discriminate.
    + intros ->. destruct Hok as [Q|[Q|[Q|Q]]]; discriminate.
    + eexists. split; [reflexivity|]. split; [exact Hg'|exact (grow_zr _ _ Hgr)].
  - destruct (alloc_ok s k (repeat None n) Hg) as (Hg' & Hgr & _).
    + apply nth_repeat_none.
    + intros ->. destruct Hok as [Q|[Q|Q]]; discriminate.
    + intros ->. destruct Hok as [Q|[Q|Q]]; discriminate.
    + eexists. split; [reflexivity|]. split; [exact Hg'|exact (grow_zr _ _ Hgr)].
  - destruct Hok as ((r & -> & Hr) & c & -> & Hc). destruct (new_uniform_ok fuel s r c Hg Hr Hc) as (s' & R & Hg' & Hgr & _). exists s'. rewrite R. split; [reflexivity|]. split; [exact Hg'|exact (grow_zr _ _ Hgr)].
  - destruct Hok as (Hr & Hc). destruct (new_h2_ok fuel s rb cb n Hg Hr Hc) as (s' & n' & R & Hg' & Hgr & _). exists s'. rewrite R. split; [reflexivity|]. split; [exact Hg'|exact (grow_zr _ _ Hgr)].
  - destruct Hok as ((r & -> & Hr) & c & -> & Hc). destruct (new_uniform_h2_ok fuel s r c Hg Hr Hc) as (s' & R & Hg' & Hz). exists s'. rewrite R. auto.
  - destruct Hok as (k & Hk & Hok). apply (ref_with_ok (only k) k fuel (unref_tree fuel)); [apply unref_tree_ok, Hk| |exact Hg|exact Hok].
    intros k' j Ht Hne. destruct (only k k') eqn:E; [|reflexivity]. apply only_true in E. congruence.
  - apply (ref_with_ok isBUH KH fuel (unref_h2 fuel fuel)); [apply unref_h2_ok; lia| |exact Hg|exact Hok].
    intros k' j Ht Hne. destruct k'; cbn in *; try reflexivity; try discriminate. congruence.
  - apply ref_uniform_ok; assumption.
  - apply unref_op_ok; assumption.
  - destruct Hok as (k & n & Hk & Hn & Hkn & Hr & Hc).
    destruct (del_tree_ok (only k) k fuel (unref_tree fuel) x n s none2 nox zero (unref_tree_ok k Hk fuel) Hk Hr Hkn Hg Hn (cpl_complete _ _ _ Hc)) as (s' & R & Hg' & _ & He).
    exists (put s' x None). split; [exact R|]. split; [exact Hg'|exact (put_none_zr _ _ _ _ He)].
  - destruct Hok as (H1 & H2 & HX). apply del_uniform_op_ok; assumption.
  - destruct Hok as (n & Hn & Hk & Hr & Hc).
    destruct (del_h2_ok fuel fuel (unref_h2 fuel fuel) x n s none2 nox zero (unref_h2_ok fuel fuel (le_n _)) (le_n _) Hr Hk Hg Hn eq_refl (cpl_complete _ _ _ Hc)) as (s' & R & Hg' & He).
    exists (put s' x None). split; [exact R|]. split; [exact Hg'|exact (put_none_zr _ _ _ _ He)].
Qed.
