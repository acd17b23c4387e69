(** * Reference counting: counters *)
From Coq Require Import Arith Lia List Bool.
From Verif Require Import Prog HmSpec HmP RefHeap RefSpec.
Import ListNotations.

(** ** Counting with exceptions
    [E p i]: the pointer [i] of [p] is not counted; [pend x]: additional references to [x]. *)
Definition hit (c : list (option nat)) (i x : nat) : nat := match nth_error c i with Some (Some y) => if y =? x then 1 else 0 | _ => 0 end.
Definition ncnt (E : nat -> bool) (c : list (option nat)) (x : nat) : nat := nsum (length c) (fun i => if E i then 0 else hit c i x).
Definition cnt (s : heap) (E : nat -> nat -> bool) (x : nat) : nat :=
  nsum (nx s) (fun p => match hp s p with Some n => ncnt (E p) (nc n) x | None => 0 end).

Lemma nsum_upd (f g : nat -> nat) n a : a < n -> (forall i, i < n -> i <> a -> f i = g i) -> nsum n f + g a = nsum n g + f a.
Proof.
  induction n as [|n IH]; intros Ha H; [lia|]. cbn. destruct (Nat.eq_dec a n) as [->|Hn].
  - rewrite (nsum_ext n f g); [lia|]. intros i Hi. apply H; lia.
  - specialize (IH ltac:(lia) ltac:(intros; apply H; lia)). rewrite (H n) by lia. lia.
Qed.
Lemma nsum_zero n f : nsum n f = 0 <-> forall i, i < n -> f i = 0.
Proof.
  induction n as [|n IH]; cbn; [split; intros; lia|]. split.
  - intros H i Hi. destruct (Nat.eq_dec i n) as [->|]; [lia|]. apply IH; lia.
  - intros H. rewrite (proj2 IH); [apply H; lia|]. intros i Hi. apply H; lia.
Qed.

Lemma ncnt_occurs c x : ncnt (fun _ => false) c x = occurs c x.
Proof.
  unfold ncnt, occurs. induction c as [|p c IH] using rev_ind; [reflexivity|]. rewrite app_length. cbn [length]. rewrite Nat.add_1_r. cbn [nsum].
  rewrite filter_app, app_length, <- IH. f_equal.
  - apply nsum_ext. intros i Hi. unfold hit. rewrite nth_error_app1 by exact Hi. reflexivity.
  - unfold hit. rewrite nth_error_app2, Nat.sub_diag by lia. cbn. destruct p as [y|]; [|reflexivity]. cbn. destruct (y =? x); reflexivity.
Qed.
Lemma cnt_refcount s x : cnt s (fun _ _ => false) x = refcount s x.
Proof. unfold cnt, refcount. apply nsum_ext. intros p _. destruct (hp s p); [apply ncnt_occurs|reflexivity]. Qed.

Lemma cnt_pos s E p n i x : hp s p = Some n -> p < nx s -> nth_error (nc n) i = Some (Some x) -> E p i = false -> 0 < cnt s E x.
Proof.
  intros Hp Hn Hi HE. destruct (Nat.eq_dec (cnt s E x) 0) as [H0|]; [|lia]. unfold cnt in H0.
  apply (proj1 (nsum_zero _ _)) with (i := p) in H0; [|exact Hn]. rewrite Hp in H0. unfold ncnt in H0.
  apply (proj1 (nsum_zero _ _)) with (i := i) in H0; [|apply nth_error_Some; congruence]. rewrite HE in H0. unfold hit in H0. rewrite Hi, Nat.eqb_refl in H0. lia.
Qed.
Lemma cnt_ext s s' E E' x : nx s' = nx s ->
  (forall p, p < nx s -> match hp s p, hp s' p with
     | Some n, Some n' => nc n' = nc n /\ (forall i, i < length (nc n) -> E p i = E' p i)
     | None, None => True
     | Some n, None => ncnt (E p) (nc n) x = 0
     | None, Some n => ncnt (E' p) (nc n) x = 0 end) -> cnt s' E' x = cnt s E x.
Proof.
  intros Hn H. unfold cnt. rewrite Hn. apply nsum_ext. intros p Hp. specialize (H p Hp). destruct (hp s p) as [n|], (hp s' p) as [n'|]; try lia.
  destruct H as [-> HE]. unfold ncnt. apply nsum_ext. intros i Hi. rewrite HE by exact Hi. reflexivity.
Qed.

(** One more exception *)
Definition excl (E : nat -> nat -> bool) (p i : nat) (p' i' : nat) : bool := E p' i' || ((p' =? p) && (i' =? i)).
Lemma excl_same E p i : excl E p i p i = true.
Proof. unfold excl. rewrite !Nat.eqb_refl. apply orb_true_r. Qed.
Lemma excl_other E p i p' i' : (p', i') <> (p, i) -> excl E p i p' i' = E p' i'.
Proof. intros H. unfold excl. destruct (Nat.eqb_spec p' p), (Nat.eqb_spec i' i); subst; try congruence; apply orb_false_r. Qed.
Lemma excl_other_node E p i p' i' : p' <> p -> excl E p i p' i' = E p' i'.
Proof. intros H. apply excl_other. congruence. Qed.
Lemma excl_false E p i p' i' : excl E p i p' i' = false -> E p' i' = false /\ (p', i') <> (p, i).
Proof. intros H. destruct (Nat.eq_dec p' p) as [->|H1]; [destruct (Nat.eq_dec i' i) as [->|H2]|]; [rewrite excl_same in H; discriminate| |]; rewrite excl_other in H by congruence; split; congruence. Qed.

Lemma cnt_excl s E p n i y x : hp s p = Some n -> p < nx s -> nth_error (nc n) i = Some y -> E p i = false ->
  cnt s E x = cnt s (excl E p i) x + (if ptr_eqb y (Some x) then 1 else 0).
Proof.
  intros Hp Hn Hi HE. 
  set (f := fun q => match hp s q with Some n => ncnt (E q) (nc n) x | None => 0 end).
  set (g := fun q => match hp s q with Some n => ncnt (excl E p i q) (nc n) x | None => 0 end).
  assert (Ef : f p = ncnt (E p) (nc n) x) by (unfold f; rewrite Hp; reflexivity).
  assert (Eg : g p = ncnt (excl E p i p) (nc n) x) by (unfold g; rewrite Hp; reflexivity).
  change (cnt s E x) with (nsum (nx s) f). change (cnt s (excl E p i) x) with (nsum (nx s) g).
  pose proof (nsum_upd f g (nx s) p Hn) as H.
  assert (H1 : ncnt (E p) (nc n) x = ncnt (excl E p i p) (nc n) x + (if ptr_eqb y (Some x) then 1 else 0)).
  { unfold ncnt. assert (Hi' : i < length (nc n)) by (apply nth_error_Some; congruence).
    pose proof (nsum_upd (fun j => if E p j then 0 else hit (nc n) j x) (fun j => if excl E p i p j then 0 else hit (nc n) j x) (length (nc n)) i Hi') as H1.
    cbv beta in H1. rewrite excl_same, HE in H1.
    assert (Eh : hit (nc n) i x = if ptr_eqb y (Some x) then 1 else 0) by (unfold hit; rewrite Hi; destruct y; reflexivity). rewrite Eh in H1. specialize (H1 ltac:(intros j _ Hj; rewrite excl_other by congruence; reflexivity)).
    lia. }
  specialize (H ltac:(intros q _ Hq; unfold f, g; destruct (hp s q); [|reflexivity]; unfold ncnt; apply nsum_ext; intros j _; rewrite excl_other_node by exact Hq; reflexivity)).
  lia.
Qed.

Lemma put_same s x v : hp (put s x v) x = v.
Proof. cbn. rewrite Nat.eqb_refl. reflexivity. Qed.
Lemma put_other s x v y : y <> x -> hp (put s x v) y = hp s y.
Proof. intros H. cbn. destruct (Nat.eqb_spec y x); [contradiction|reflexivity]. Qed.

Lemma lset_length {A} (l : list A) : forall i v, length (lset l i v) = length l.
Proof. induction l as [|a l IH]; intros [|i] v; cbn; auto. Qed.
Lemma lset_same {A} (l : list A) : forall i v, i < length l -> nth_error (lset l i v) i = Some v.
Proof. induction l as [|a l IH]; intros [|i] v H; cbn in *; try lia; [reflexivity|]. apply IH. lia. Qed.
Lemma lset_other {A} (l : list A) : forall i j v, j <> i -> nth_error (lset l i v) j = nth_error l j.
Proof. induction l as [|a l IH]; intros [|i] [|j] v H; cbn; try reflexivity; try lia. apply IH. lia. Qed.

(** Writing an uncounted pointer that is counted afterwards *)
Lemma cnt_set s E p n i t x : hp s p = Some n -> p < nx s -> i < length (nc n) -> E p i = false ->
  cnt (put s p (Some (with_c n i t))) E x = cnt s (excl E p i) x + (if ptr_eqb t (Some x) then 1 else 0).
Proof.
  intros Hp Hn Hi HE. rewrite (cnt_excl (put s p (Some (with_c n i t))) E p (with_c n i t) i t x); [|apply put_same|exact Hn|cbn; apply lset_same; exact Hi|exact HE].
  f_equal. unfold cnt. cbn [nx put]. apply nsum_ext. intros q Hq. destruct (Nat.eq_dec q p) as [->|Hqp].
  - rewrite put_same, Hp. unfold ncnt. cbn [nc with_c]. rewrite lset_length. apply nsum_ext. intros j Hj. destruct (Nat.eq_dec j i) as [->|Hji].
    + rewrite excl_same. reflexivity.
    + unfold hit. rewrite lset_other by exact Hji. reflexivity.
  - rewrite put_other by exact Hqp. reflexivity.
Qed.

(** ** The invariant *)
Definition shape (n : node) : Prop := (nk n = KU -> length (nc n) = 2) /\ (nk n = KH -> 2 <= length (nc n)) /\
  (nk n <> KB -> forall sd, nl n sd = None) /\ (nk n <> KH -> nu n = None) /\ (nk n = KU -> nr n = 0).
Record inv (s : heap) (E : nat -> nat -> bool) (pend : nat -> nat) : Prop := {
  iv_next : forall x n, hp s x = Some n -> x < nx s;
  iv_shape : forall x n, hp s x = Some n -> shape n;
  iv_refs : forall x n, hp s x = Some n -> nr n = cnt s E x + pend x;
  iv_points : forall p n i t, hp s p = Some n -> nth_error (nc n) i = Some (Some t) -> E p i = false -> live s t (target (nk n) i);
  iv_pend : forall t, 0 < pend t -> exists n, hp s t = Some n }.
Definition linv (s : heap) (E : nat -> nat -> bool) : Prop := forall b n sd, hp s b = Some n -> nk n = KB ->
  exists l, NoDup l /\ (forall u, In u l <-> live s u KU /\ points s u (side sd) (Some b) /\ E u (side sd) = false) /\
    chain (next_of s sd) (prev_of s sd) None (nl n sd) l.
Definition own (s : heap) (X : nat -> bool) : Prop :=
  (forall x n u, hp s x = Some n -> nu n = Some u -> X x = false -> live s u KU) /\
  (forall x n y m u, hp s x = Some n -> nu n = Some u -> hp s y = Some m -> nu m = Some u -> x = y) /\
  (forall x n, hp s x = Some n -> X x = true -> nk n = KH /\ nr n = 0).
Definition good (s : heap) E X pend : Prop := inv s E pend /\ linv s E /\ own s X.
Definition dec (pend : nat -> nat) (x : nat) : nat -> nat := fun l => pend l - (if l =? x then 1 else 0).
Definition inc (pend : nat -> nat) (x : nat) : nat -> nat := fun l => pend l + (if l =? x then 1 else 0).
Definition none2 : nat -> nat -> bool := fun _ _ => false.

Lemma inv_pend s E p p' : inv s E p -> (forall x, p' x = p x) -> inv s E p'.
Proof. intros [H1 H2 H3 H4 H5] H. constructor; auto; intros; [rewrite H; auto|apply H5; rewrite <- H; assumption]. Qed.
Lemma good_pend s E X p p' : good s E X p -> (forall x, p' x = p x) -> good s E X p'.
Proof. intros (H1 & H2 & H3) H. split; [eapply inv_pend; eauto|auto]. Qed.

Lemma good_wf s : good s none2 (fun _ => false) (fun _ => 0) <-> wf s.
Proof.
  split.
  - intros ([H1 H2 H3 H4 H5] & Hl & Ho1 & Ho2 & _). constructor; [exact H1|intros x n H; destruct (H2 x n H) as (Q1 & Q2 & Q3 & Q4 & _); auto| | | | |exact Ho2].
    + intros x n H. rewrite (H3 _ _ H), cnt_refcount. lia.
    + intros p n i t Hp Hn. eapply H4; eauto.
    + intros b n sd H H0. destruct (Hl b n sd H H0) as (l & A1 & A2 & A3). exists l. split; [exact A1|]. split; [|exact A3]. intros u. rewrite A2. unfold none2. tauto.
    + intros x n u Hx Hu. eapply Ho1; eauto.
  - intros [H1 H2 H3 H4 H5 H6 H7]. split; [|split].
    + constructor; [exact H1| | | |].
      * intros x n H. destruct (H2 x n H) as (Q1 & Q2 & Q3 & Q4). repeat split; auto. intros Hk. rewrite (H3 x n H), <- cnt_refcount. unfold cnt. apply nsum_zero.
        intros p Hp. destruct (hp s p) as [m|] eqn:Em; [|reflexivity]. unfold ncnt. apply nsum_zero. intros i Hi. unfold hit. destruct (nth_error (nc m) i) as [[y|]|] eqn:Ei; try reflexivity.
        destruct (Nat.eqb_spec y x) as [Ey|]; [|reflexivity]. subst y. destruct (H4 p m i x Em Ei) as (n0 & Hn0 & Hk0). rewrite H in Hn0. injection Hn0 as <-. exfalso. revert Hk0. rewrite Hk. unfold target.
        destruct (nk m); try discriminate. destruct (i <? 2); discriminate.
      * intros x n H. rewrite (H3 _ _ H), cnt_refcount. lia.
      * intros p n i t Hp Hn _. eapply H4; eauto.
      * intros t Ht. lia.
    + intros b n sd H H0. destruct (H5 b n sd H H0) as (l & A1 & A2 & A3). exists l. split; [exact A1|]. split; [|exact A3]. intros u. rewrite A2. unfold none2. tauto.
    + split; [eauto|split; [eauto|discriminate]].
Qed.

(** A structure without references *)
Lemma cnt0_points s E pend x n p m i : inv s E pend -> hp s x = Some n -> nr n = 0 -> hp s p = Some m -> E p i = false -> nth_error (nc m) i <> Some (Some x).
Proof.
  intros Hi Hx Hr Hp HE Hn. pose proof (iv_refs _ _ _ Hi _ _ Hx) as H. pose proof (cnt_pos s E p m i x Hp (iv_next _ _ _ Hi _ _ Hp) Hn HE). lia.
Qed.

(** ** How deletions change the heap *)
Record evo (A : kind -> bool) (s s' : heap) : Prop := {
  ev_nx : nx s' = nx s;
  ev_none : forall l, hp s l = None -> hp s' l = None;
  ev_kind : forall l n, hp s l = Some n -> A (nk n) = false -> hp s' l = Some n;
  ev_zero : forall l n, hp s l = Some n -> nr n = 0 -> nk n <> KU -> hp s' l = Some n;
  ev_same : forall l n n', hp s l = Some n -> hp s' l = Some n' -> nk n' = nk n /\ nc n' = nc n /\ nu n' = nu n /\ (nr n' = 0 -> nr n = 0) }.
Lemma evo_refl A s : evo A s s.
Proof. constructor; auto. intros l n n' H H'. rewrite H in H'. injection H' as <-. auto. Qed.
Lemma evo_trans A s1 s2 s3 : evo A s1 s2 -> evo A s2 s3 -> evo A s1 s3.
Proof.
  intros [A1 A2 A3 A4 A5] [B1 B2 B3 B4 B5]. constructor; eauto; [congruence|].
  intros l n n' H H'. destruct (hp s2 l) as [m|] eqn:Em.
  - destruct (A5 _ _ _ H Em) as (E1 & E2 & E3 & E4). destruct (B5 _ _ _ Em H') as (F1 & F2 & F3 & F4).
    repeat split; try congruence. auto.
  - rewrite (B2 _ Em) in H'. discriminate.
Qed.
Lemma evo_sub (A B : kind -> bool) s s' : (forall k, A k = true -> B k = true) -> evo A s s' -> evo B s s'.
Proof.
  intros HAB [A1 A2 A3 A4 A5]. constructor; auto. intros l n H HB. apply A3; [exact H|]. destruct (A (nk n)) eqn:E; [|reflexivity]. rewrite (HAB _ E) in HB. discriminate.
Qed.
Lemma evo_live A s s' x k : evo A s s' -> live s x k -> hp s' x <> None -> live s' x k.
Proof.
  intros He (n & Hn & Hk) H. destruct (hp s' x) as [n'|] eqn:E; [|congruence]. destruct (ev_same _ _ _ He _ _ _ Hn E) as (E1 & _). exists n'. split; [exact E|congruence].
Qed.

(** Completeness without exceptions *)
Fixpoint cpl (s : heap) (E : nat -> nat -> bool) (d : nat) (x : nat) : Prop :=
  match d with
  | 0 => False
  | S d' => exists n, hp s x = Some n /\
      (forall i p, nth_error (nc n) i = Some p -> E x i = false /\ exists y, p = Some y /\ cpl s E d' y) /\
      (forall u, nu n = Some u -> cpl s E d' u)
  end.
Lemma cpl_complete s d : forall x, complete s d x -> cpl s none2 d x.
Proof.
  induction d as [|d IH]; intros x H; [exact H|]. destruct H as (n & Hn & H1 & H2). exists n. split; [exact Hn|]. split.
  - intros i p Hi. split; [reflexivity|]. destruct (H1 i p Hi) as (y & -> & Hy). exists y. auto.
  - intros u Hu. apply IH, H2, Hu.
Qed.
Lemma cpl_mono s E d : forall x d', cpl s E d x -> d <= d' -> cpl s E d' x.
Proof.
  induction d as [|d IH]; intros x d' H Hd; [contradiction|]. destruct d' as [|d']; [lia|]. destruct H as (n & Hn & H1 & H2). exists n. split; [exact Hn|]. split.
  - intros i p Hi. destruct (H1 i p Hi) as (He & y & -> & Hy). split; [exact He|]. exists y. split; [reflexivity|]. apply IH; [exact Hy|lia].
  - intros u Hu. apply IH; [apply H2, Hu|lia].
Qed.
(** It persists as long as the structure lives. *)
Lemma cpl_evo A s s' E X pend d : evo A s s' -> inv s' E pend -> own s' X -> forall x, cpl s E d x ->
  (exists n, hp s' x = Some n /\ (nk n <> KH \/ 0 < nr n)) -> cpl s' E d x.
Proof.
  intros He Hi (Ho & _ & Hd). induction d as [|d IH]; intros x H (n' & Hn' & Hx); [exact H|]. destruct H as (n & Hn & H1 & H2).
  destruct (ev_same _ _ _ He _ _ _ Hn Hn') as (E1 & E2 & E3 & E4). exists n'. split; [exact Hn'|]. split.
  - intros i p Hp. rewrite E2 in Hp. destruct (H1 i p Hp) as (HE & y & -> & Hy). split; [exact HE|]. exists y. split; [reflexivity|].
    apply IH; [exact Hy|]. rewrite <- E2 in Hp. destruct (iv_points _ _ _ Hi _ _ _ _ Hn' Hp HE) as (m & Hm & _). exists m. split; [exact Hm|]. right.
    rewrite (iv_refs _ _ _ Hi _ _ Hm). pose proof (cnt_pos s' E x n' i y Hn' (iv_next _ _ _ Hi _ _ Hn') Hp HE). lia.
  - intros u Hu. rewrite E3 in Hu. apply IH; [apply H2, Hu|]. destruct (Ho x n' u Hn') as (m & Hm & Hk); [congruence| |exists m; split; [exact Hm|left; congruence]].
    destruct (X x) eqn:EX; [|reflexivity]. destruct (Hd x n' Hn' EX) as (Q1 & Q2). destruct Hx; [contradiction|lia].
Qed.
(** Pointers of a structure outside do not matter. *)
Lemma cpl_off s E E' X pend d x m : (forall p j, p <> x -> E' p j = E p j) -> inv s E pend -> own s X -> hp s x = Some m -> nr m = 0 -> forall y n, cpl s E d y ->
  hp s y = Some n -> 0 < nr n \/ nk n = KU -> nk m <> KU \/ nk n = KB -> cpl s E' d y.
Proof.
  intros HEE Hi Ho Hx Hr. induction d as [|d IH]; intros y n H Hn Hy HK; [exact H|]. destruct H as (n0 & Hn0 & H1 & H2). rewrite Hn in Hn0. injection Hn0 as <-.
  assert (Hne : y <> x).
  { intros ->. rewrite Hx in Hn. injection Hn as ->. destruct Hy; [lia|]. destruct HK; congruence. }
  exists n. split; [exact Hn|]. split.
  - intros j p Hp. destruct (H1 j p Hp) as (HE & z & -> & Hz). split; [rewrite HEE by exact Hne; exact HE|]. exists z. split; [reflexivity|].
    destruct (iv_points _ _ _ Hi _ _ _ _ Hn Hp HE) as (nz & Hnz & Hkz).
    apply (IH z nz); [exact Hz|exact Hnz| |].
    + left. rewrite (iv_refs _ _ _ Hi _ _ Hnz). pose proof (cnt_pos s E y n j z Hn (iv_next _ _ _ Hi _ _ Hn) Hp HE). lia.
    + destruct HK as [HK|HK]; [left; exact HK|right]. rewrite Hkz, HK. reflexivity.
  - intros u Hu. assert (HkH : nk n = KH).
    { destruct (iv_shape _ _ _ Hi _ _ Hn) as (_ & _ & _ & Q & _). destruct (nk n); try (rewrite Q in Hu by discriminate; discriminate). reflexivity. }
    destruct Ho as (Ho & _ & Hd).
    destruct (Ho y n u Hn Hu) as (nu' & Hnu & Hku).
    { destruct (X y) eqn:EX; [|reflexivity]. destruct (Hd y n Hn EX) as (Q1 & Q2). destruct Hy; [lia|congruence]. }
    apply (IH u nu'); [apply H2, Hu|exact Hnu|right; exact Hku|]. destruct HK as [HK|HK]; [left; exact HK|congruence].
Qed.

Lemma cpl_excl s E X pend d x m i : inv s E pend -> own s X -> hp s x = Some m -> nr m = 0 -> forall y n, cpl s E d y ->
  hp s y = Some n -> 0 < nr n \/ nk n = KU -> nk m <> KU \/ nk n = KB -> cpl s (excl E x i) d y.
Proof. apply cpl_off. intros p j Hp. apply excl_other_node, Hp. Qed.
