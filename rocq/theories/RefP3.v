(** * Reference counting: lists of uniform matrices *)
From Coq Require Import Arith Lia List Bool.
From Verif Require Import Prog HmSpec HmP RefHeap RefSpec RefP RefP2.
Import ListNotations.

(** ** Doubly linked lists *)
Section Chains.
Context (nx pv : nat -> option nat).

Lemma chain_next l2 u l1 : forall b f, chain nx pv b f (l1 ++ u :: l2) -> nx u = hd_error l2.
Proof.
  induction l1 as [|w l1 IH]; intros b f H.
  - destruct H as (_ & _ & H). destruct l2 as [|v l2]; [exact H|]. apply H.
  - destruct H as (_ & _ & H). eapply IH; eauto.
Qed.
Lemma chain_prev l2 u l1 : forall b f, chain nx pv b f (l1 ++ u :: l2) -> match l1 with [] => pv u = b | _ => exists v, In v l1 /\ pv u = Some v end.
Proof.
  induction l1 as [|w l1 IH]; intros b f H.
  - apply H.
  - destruct H as (_ & _ & H). specialize (IH _ _ H). destruct l1 as [|w' l1]; [exists w; split; [left; reflexivity|exact IH]|].
    destruct IH as (v & Hv & E). exists v. split; [right; exact Hv|exact E].
Qed.

Context (nx' pv' : nat -> option nat) (u : nat).
Hypothesis Hnx : forall v, nx' v = if ptr_eqb (pv u) (Some v) then nx u else nx v.
Hypothesis Hpv : forall v, pv' v = if ptr_eqb (nx u) (Some v) then pv u else pv v.

Lemma ptr_eqb_ne p v : p <> Some v -> ptr_eqb p (Some v) = false.
Proof. destruct p as [w|]; cbn; [|reflexivity]. intros H. apply Nat.eqb_neq. congruence. Qed.

Lemma chain_remove l2 l1 : forall b f, chain nx pv b f (l1 ++ u :: l2) -> NoDup (l1 ++ u :: l2) -> (forall v, b = Some v -> ~ In v (l1 ++ u :: l2)) ->
  chain nx' pv' b (match l1 with [] => nx u | _ => f end) (l1 ++ l2).
Proof.
  induction l1 as [|w l1 IH]; intros b f H Hd Hb.
  - destruct H as (-> & Hp & H). cbn [app] in *. inversion Hd as [|? ? Hu Hd2]; subst.
    assert (Hn : forall v, In v l2 -> nx' v = nx v).
    { intros v Hv. rewrite Hnx, ptr_eqb_ne; [reflexivity|]. intros Q. apply (Hb v Q). right. exact Hv. }
    destruct l2 as [|v l2]; [exact H|]. destruct H as (E1 & E2 & H). split; [exact E1|]. split.
    + rewrite Hpv, E1. cbn. rewrite Nat.eqb_refl. reflexivity.
    + rewrite Hn by (left; reflexivity). eapply chain_ext; [|exact H]. intros z Hz. split; [apply Hn; right; exact Hz|].
      rewrite Hpv, E1, ptr_eqb_ne; [reflexivity|]. intros Q. injection Q as ->. inversion Hd2; subst. contradiction.
  - destruct H as (-> & Hp & H). cbn [app] in *. inversion Hd as [|? ? Hw Hd2]; subst. split; [reflexivity|]. split.
    + rewrite Hpv, ptr_eqb_ne; [exact eq_refl|]. rewrite (chain_next l2 u l1 _ _ H). intros Q. apply Hw, in_or_app. right. right. destruct l2; [discriminate|]. injection Q as ->. left. reflexivity.
    + assert (E : nx' w = match l1 with [] => nx u | _ => nx w end).
      { rewrite Hnx. pose proof (chain_prev l2 u l1 _ _ H) as Q. destruct l1 as [|z l1]; [rewrite Q; cbn; rewrite Nat.eqb_refl; reflexivity|].
        destruct Q as (v & Hv & ->). rewrite ptr_eqb_ne; [reflexivity|]. intros Q. injection Q as ->. apply Hw, in_or_app. left. exact Hv. }
      rewrite E. apply IH; [exact H|exact Hd2|]. intros v Q. injection Q as <-. exact Hw.
Qed.
End Chains.

(** ** Changes of list pointers *)
Definition lsel (s : heap) (sd : bool) (b : nat) : option nat := match hp s b with Some n => nl n sd | None => None end.
Lemma next_p s v m sd p sd' x : hp s v = Some m -> next_of (put s v (Some (with_p m sd p))) sd' x = next_of s sd' x.
Proof. intros H. unfold next_of. cbn. destruct (Nat.eqb_spec x v) as [->|]; [rewrite H|]; reflexivity. Qed.
Lemma next_l s v m sd p sd' x : hp s v = Some m -> next_of (put s v (Some (with_l m sd p))) sd' x = next_of s sd' x.
Proof. intros H. unfold next_of. cbn. destruct (Nat.eqb_spec x v) as [->|]; [rewrite H|]; reflexivity. Qed.
Lemma prev_n s v m sd p sd' x : hp s v = Some m -> prev_of (put s v (Some (with_n m sd p))) sd' x = prev_of s sd' x.
Proof. intros H. unfold prev_of. cbn. destruct (Nat.eqb_spec x v) as [->|]; [rewrite H|]; reflexivity. Qed.
Lemma prev_l s v m sd p sd' x : hp s v = Some m -> prev_of (put s v (Some (with_l m sd p))) sd' x = prev_of s sd' x.
Proof. intros H. unfold prev_of. cbn. destruct (Nat.eqb_spec x v) as [->|]; [rewrite H|]; reflexivity. Qed.
Lemma lsel_n s v m sd p sd' x : hp s v = Some m -> lsel (put s v (Some (with_n m sd p))) sd' x = lsel s sd' x.
Proof. intros H. unfold lsel. cbn. destruct (Nat.eqb_spec x v) as [->|]; [rewrite H|]; reflexivity. Qed.
Lemma lsel_p s v m sd p sd' x : hp s v = Some m -> lsel (put s v (Some (with_p m sd p))) sd' x = lsel s sd' x.
Proof. intros H. unfold lsel. cbn. destruct (Nat.eqb_spec x v) as [->|]; [rewrite H|]; reflexivity. Qed.
Lemma prev_p s v m sd p sd' x : hp s v = Some m -> prev_of (put s v (Some (with_p m sd p))) sd' x = if Bool.eqb sd sd' && (x =? v) then p else prev_of s sd' x.
Proof. intros H. unfold prev_of. cbn. destruct (Nat.eqb_spec x v) as [->|]; [rewrite H; cbn; unfold sset; destruct (Bool.eqb sd sd'); reflexivity|]. rewrite andb_false_r. reflexivity. Qed.
Lemma next_n s v m sd p sd' x : hp s v = Some m -> next_of (put s v (Some (with_n m sd p))) sd' x = if Bool.eqb sd sd' && (x =? v) then p else next_of s sd' x.
Proof. intros H. unfold next_of. cbn. destruct (Nat.eqb_spec x v) as [->|]; [rewrite H; cbn; unfold sset; destruct (Bool.eqb sd sd'); reflexivity|]. rewrite andb_false_r. reflexivity. Qed.
Lemma lsel_l s v m sd p sd' x : hp s v = Some m -> lsel (put s v (Some (with_l m sd p))) sd' x = if Bool.eqb sd sd' && (x =? v) then p else lsel s sd' x.
Proof. intros H. unfold lsel. cbn. destruct (Nat.eqb_spec x v) as [->|]; [rewrite H; cbn; unfold sset; destruct (Bool.eqb sd sd'); reflexivity|]. rewrite andb_false_r. reflexivity. Qed.

(** Only list pointers differ. *)
Definition lk (s s' : heap) : Prop := nx s' = nx s /\ forall x, match hp s x, hp s' x with
  | Some n, Some n' => nk n' = nk n /\ nr n' = nr n /\ nc n' = nc n /\ nu n' = nu n /\ (nk n <> KB -> nl n' = nl n)
  | None, None => True
  | _, _ => False end.
Lemma lk_refl s : lk s s.
Proof. split; [reflexivity|]. intros x. destruct (hp s x); auto 6. Qed.
Lemma lk_trans s1 s2 s3 : lk s1 s2 -> lk s2 s3 -> lk s1 s3.
Proof.
  intros (A & H) (B & H'). split; [congruence|]. intros x. specialize (H x). specialize (H' x). destruct (hp s1 x), (hp s2 x), (hp s3 x); try contradiction; auto.
  destruct H as (A1 & A2 & A3 & A4 & A5), H' as (B1 & B2 & B3 & B4 & B5). repeat split; try congruence. intros HB. rewrite B5, A5; congruence.
Qed.
Lemma lk_put s x n n' : hp s x = Some n -> nk n' = nk n -> nr n' = nr n -> nc n' = nc n -> nu n' = nu n -> (nk n <> KB -> nl n' = nl n) -> lk s (put s x (Some n')).
Proof.
  intros H A1 A2 A3 A4 A5. split; [reflexivity|]. intros y. destruct (Nat.eq_dec y x) as [->|Hne].
  - rewrite put_same, H. auto.
  - rewrite put_other by exact Hne. destruct (hp s y); auto 6.
Qed.
Lemma lk_fwd s s' x n : lk s s' -> hp s x = Some n -> exists n', hp s' x = Some n' /\ nk n' = nk n /\ nr n' = nr n /\ nc n' = nc n /\ nu n' = nu n /\ (nk n <> KB -> nl n' = nl n).
Proof. intros (_ & H) Hx. specialize (H x). rewrite Hx in H. destruct (hp s' x) as [n'|]; [|contradiction]. exists n'. auto. Qed.
Lemma lk_bwd s s' x n' : lk s s' -> hp s' x = Some n' -> exists n, hp s x = Some n /\ nk n' = nk n /\ nr n' = nr n /\ nc n' = nc n /\ nu n' = nu n /\ (nk n <> KB -> nl n' = nl n).
Proof. intros (_ & H) Hx. specialize (H x). rewrite Hx in H. destruct (hp s x) as [n|]; [|contradiction]. exists n. auto. Qed.
Lemma lk_live s s' x k : lk s s' -> live s x k <-> live s' x k.
Proof.
  intros H. split; intros (n & Hn & Hk).
  - destruct (lk_fwd _ _ _ _ H Hn) as (n' & Hn' & E & _). exists n'. split; congruence.
  - destruct (lk_bwd _ _ _ _ H Hn) as (n' & Hn' & E & _). exists n'. split; congruence.
Qed.
Lemma lk_points s s' p i t : lk s s' -> points s p i t <-> points s' p i t.
Proof.
  intros H. split; intros (n & Hn & Hk).
  - destruct (lk_fwd _ _ _ _ H Hn) as (n' & Hn' & _ & _ & E & _). exists n'. split; congruence.
  - destruct (lk_bwd _ _ _ _ H Hn) as (n' & Hn' & _ & _ & E & _). exists n'. split; congruence.
Qed.
Lemma lk_cnt s s' E x : lk s s' -> cnt s' E x = cnt s E x.
Proof.
  intros (A & H). apply cnt_ext; [exact A|]. intros p _. specialize (H p). destruct (hp s p), (hp s' p); try contradiction; auto. destruct H as (_ & _ & H & _). auto.
Qed.
Lemma lk_inv s s' E pend : lk s s' -> inv s E pend -> inv s' E pend.
Proof.
  intros H Hi. constructor.
  - intros x n Hx. destruct (lk_bwd _ _ _ _ H Hx) as (m & Hm & _). destruct H as (-> & _). exact (iv_next _ _ _ Hi _ _ Hm).
  - intros x n Hx. destruct (lk_bwd _ _ _ _ H Hx) as (m & Hm & A1 & A2 & A3 & A4 & A5). destruct (iv_shape _ _ _ Hi _ _ Hm) as (B1 & B2 & B3 & B4 & B5).
    unfold shape. rewrite A1, A2, A3, A4. repeat split; auto. intros HB sd. rewrite A5 by exact HB. auto.
  - intros x n Hx. destruct (lk_bwd _ _ _ _ H Hx) as (m & Hm & A1 & A2 & A3 & A4 & A5). rewrite (lk_cnt _ _ _ _ H), A2. exact (iv_refs _ _ _ Hi _ _ Hm).
  - intros p n i t Hp Ht HE. destruct (lk_bwd _ _ _ _ H Hp) as (m & Hm & A1 & A2 & A3 & A4 & A5). rewrite A3 in Ht. rewrite A1. apply (lk_live _ _ _ _ H). exact (iv_points _ _ _ Hi _ _ _ _ Hm Ht HE).
  - intros t Ht. destruct (iv_pend _ _ _ Hi t Ht) as (m & Hm). destruct (lk_fwd _ _ _ _ H Hm) as (m' & Hm' & _). eauto.
Qed.
Lemma lk_own s s' X : lk s s' -> own s X -> own s' X.
Proof.
  intros H (O1 & O2 & O3). split; [|split].
  - intros x n u Hx Hu HX. destruct (lk_bwd _ _ _ _ H Hx) as (m & Hm & A1 & A2 & A3 & A4 & A5). apply (lk_live _ _ _ _ H). rewrite A4 in Hu. exact (O1 x m u Hm Hu HX).
  - intros x n y m u Hx Hu Hy Hu'. destruct (lk_bwd _ _ _ _ H Hx) as (m1 & Hm1 & _ & _ & _ & A4 & _). destruct (lk_bwd _ _ _ _ H Hy) as (m2 & Hm2 & _ & _ & _ & B4 & _).
    rewrite A4 in Hu. rewrite B4 in Hu'. exact (O2 x m1 y m2 u Hm1 Hu Hm2 Hu').
  - intros x n Hx HX. destruct (lk_bwd _ _ _ _ H Hx) as (m & Hm & A1 & A2 & _). rewrite A1, A2. exact (O3 x m Hm HX).
Qed.
Lemma lk_cpl s s' E d x : lk s s' -> cpl s E d x -> cpl s' E d x.
Proof. intros H. apply cpl_same. intros l n Hl. destruct (lk_fwd _ _ _ _ H Hl) as (n' & Hn' & _ & _ & A & B & _). eauto. Qed.

(** ** Leaving a list *)
Definition linv' (s : heap) (E : nat -> nat -> bool) : Prop := forall b sd, live s b KB ->
  exists l, NoDup l /\ (forall u, In u l <-> live s u KU /\ points s u (side sd) (Some b) /\ E u (side sd) = false) /\
    chain (next_of s sd) (prev_of s sd) None (lsel s sd b) l.
Lemma linv_linv' s E : linv s E <-> linv' s E.
Proof.
  unfold linv, linv', live, lsel. split.
  - intros H b sd (n & Hn & Hk). rewrite Hn. exact (H b n sd Hn Hk).
  - intros H b n sd Hn Hk. specialize (H b sd (ex_intro _ n (conj Hn Hk))). rewrite Hn in H. exact H.
Qed.
Lemma side_inj sd sd' : side sd = side sd' -> sd = sd'.
Proof. destruct sd, sd'; cbn; congruence. Qed.
Lemma points_fun s p i t t' : points s p i t -> points s p i t' -> t = t'.
Proof. intros (n & Hn & H) (n' & Hn' & H'). congruence. Qed.
Lemma in_split_nd (u : nat) l : In u l -> exists l1 l2, l = l1 ++ u :: l2.
Proof. apply in_split. Qed.

Lemma unlink_ok s E X pend u n sd b : good s E X pend -> hp s u = Some n -> nk n = KU -> nth_error (nc n) (side sd) = Some (Some b) -> E u (side sd) = false ->
  exists s', unlink sd u b s = Ok s' /\ good s' (excl E u (side sd)) X (inc pend b) /\ lk s s' /\ hp s' u = Some n /\ (forall x m, hp s x = Some m -> nk m <> KU -> x <> b -> hp s' x = Some m).
Proof.
  intros (Hi & Hl & Ho) Hu Hk Hb HE. pose proof (iv_points _ _ _ Hi _ _ _ _ Hu Hb HE) as Hlb. rewrite Hk in Hlb. cbn [target] in Hlb.
  apply linv_linv' in Hl. destruct (Hl b sd Hlb) as (l & Hnd & Hin & Hch).
  assert (Hul : In u l).
  { apply Hin. split; [exists n; auto|]. split; [exists n; auto|exact HE]. }
  destruct (in_split u l Hul) as (l1 & l2 & ->).
  pose proof (chain_next _ _ l2 u l1 _ _ Hch) as Enx. pose proof (chain_prev _ _ l2 u l1 _ _ Hch) as Epv.
  assert (Nu : next_of s sd u = nn n sd) by (unfold next_of; rewrite Hu; reflexivity).
  assert (Pu : prev_of s sd u = np n sd) by (unfold prev_of; rewrite Hu; reflexivity).
  rewrite Nu in Enx. rewrite Pu in Epv.
  assert (Hnd' := NoDup_remove_2 _ _ _ Hnd).
  (* the next element *)
  assert (S1 : exists s1, match nn n sd with Some v => update s v (fun m => with_p m sd (np n sd)) | None => Ok s end = Ok s1 /\ lk s s1 /\ hp s1 u = Some n /\ (forall x m, hp s x = Some m -> nk m <> KU -> hp s1 x = Some m) /\
    (forall sd' x, next_of s1 sd' x = next_of s sd' x) /\ (forall sd' x, lsel s1 sd' x = lsel s sd' x) /\
    (forall sd' x, prev_of s1 sd' x = if Bool.eqb sd sd' && ptr_eqb (nn n sd) (Some x) then np n sd else prev_of s sd' x)).
  { destruct (nn n sd) as [v|] eqn:Ev.
    - assert (Hv : In v l2) by (destruct l2; [discriminate|]; injection Enx as ->; left; reflexivity).
      assert (Hvu : u <> v) by (intros ->; apply Hnd', in_or_app; right; exact Hv).
      destruct (proj1 (Hin v) ltac:(apply in_or_app; right; right; exact Hv)) as ((m & Hm & Hkm) & _).
      exists (put s v (Some (with_p m sd (np n sd)))). unfold update, getn. rewrite Hm. split; [reflexivity|]. split; [eapply lk_put; eauto|].
      split; [rewrite put_other by exact Hvu; exact Hu|]. split; [intros x m' Hx Hkx; rewrite put_other; [exact Hx|congruence]|]. split; [intros; apply next_p, Hm|]. split; [intros; apply lsel_p, Hm|].
      intros sd' x. rewrite prev_p by exact Hm. cbn [ptr_eqb]. rewrite (Nat.eqb_sym v x). reflexivity.
    - exists s. split; [reflexivity|]. split; [apply lk_refl|]. split; [exact Hu|]. split; [auto|]. split; [reflexivity|]. split; [reflexivity|].
      intros. cbn [ptr_eqb]. rewrite andb_false_r. reflexivity. }
  destruct S1 as (s1 & R1 & K1 & U1 & F1 & N1 & L1 & P1).
  assert (S2 : exists s2, match np n sd with Some v => update s1 v (fun m => with_n m sd (nn n sd)) | None => Ok s1 end = Ok s2 /\ lk s1 s2 /\ hp s2 u = Some n /\ (forall x m, hp s1 x = Some m -> nk m <> KU -> hp s2 x = Some m) /\
    (forall sd' x, prev_of s2 sd' x = prev_of s1 sd' x) /\ (forall sd' x, lsel s2 sd' x = lsel s1 sd' x) /\
    (forall sd' x, next_of s2 sd' x = if Bool.eqb sd sd' && ptr_eqb (np n sd) (Some x) then nn n sd else next_of s1 sd' x)).
  { destruct (np n sd) as [v|] eqn:Ev.
    - assert (Hv : In v l1) by (destruct l1; [discriminate|]; destruct Epv as (w & Hw & Q); injection Q as ->; exact Hw).
      assert (Hvu : u <> v) by (intros ->; apply Hnd', in_or_app; left; exact Hv).
      destruct (proj1 (Hin v) ltac:(apply in_or_app; left; exact Hv)) as ((m0 & Hm0 & Hkm0) & _). destruct (lk_fwd _ _ _ _ K1 Hm0) as (m & Hm & Hkm & _).
      exists (put s1 v (Some (with_n m sd (nn n sd)))). unfold update, getn. rewrite Hm. split; [reflexivity|]. split; [eapply lk_put; eauto|].
      split; [rewrite put_other by exact Hvu; exact U1|]. split; [intros x m' Hx Hkx; rewrite put_other; [exact Hx|congruence]|]. split; [intros; apply prev_n, Hm|]. split; [intros; apply lsel_n, Hm|].
      intros sd' x. rewrite next_n by exact Hm. cbn [ptr_eqb]. rewrite (Nat.eqb_sym v x). reflexivity.
    - exists s1. split; [reflexivity|]. split; [apply lk_refl|]. split; [exact U1|]. split; [auto|]. split; [reflexivity|]. split; [reflexivity|].
      intros. cbn [ptr_eqb]. rewrite andb_false_r. reflexivity. }
  destruct S2 as (s2 & R2 & K2 & U2 & F2 & P2 & L2 & N2). pose proof (lk_trans _ _ _ K1 K2) as K02.
  destruct Hlb as (nb & Hnb & Hkb). destruct (lk_fwd _ _ _ _ K02 Hnb) as (nb2 & Hnb2 & Kb2 & _).
  assert (Hbu : u <> b) by (intros ->; congruence).
  assert (Lb : nl nb2 sd = nl nb sd).
  { pose proof (L2 sd b) as Q. rewrite L1 in Q. unfold lsel in Q. rewrite Hnb, Hnb2 in Q. exact Q. }
  assert (Lb' : lsel s sd b = nl nb sd) by (unfold lsel; rewrite Hnb; reflexivity).
  assert (S3 : exists s3, (if ptr_eqb (nl nb2 sd) (Some u) then update s2 b (fun m => with_l m sd (nn n sd)) else Ok s2) = Ok s3 /\ lk s2 s3 /\ hp s3 u = Some n /\ (forall x m, hp s2 x = Some m -> x <> b -> hp s3 x = Some m) /\
    (forall sd' x, prev_of s3 sd' x = prev_of s2 sd' x) /\ (forall sd' x, next_of s3 sd' x = next_of s2 sd' x) /\
    (forall sd' x, lsel s3 sd' x = if Bool.eqb sd sd' && (x =? b) then (if ptr_eqb (nl nb sd) (Some u) then nn n sd else nl nb sd) else lsel s sd' x)).
  { rewrite Lb. destruct (ptr_eqb (nl nb sd) (Some u)) eqn:Ep.
    - exists (put s2 b (Some (with_l nb2 sd (nn n sd)))). unfold update, getn. rewrite Hnb2. split; [reflexivity|]. split; [eapply lk_put; eauto; cbn; congruence|].
      split; [rewrite put_other by exact Hbu; exact U2|]. split; [intros x m' Hx Hxb; rewrite put_other by exact Hxb; exact Hx|]. split; [intros; apply prev_l, Hnb2|]. split; [intros; apply next_l, Hnb2|].
      intros sd' x. rewrite lsel_l by exact Hnb2. rewrite L2, L1. reflexivity.
    - exists s2. split; [reflexivity|]. split; [apply lk_refl|]. split; [exact U2|]. split; [auto|]. split; [reflexivity|]. split; [reflexivity|].
      intros sd' x. rewrite L2, L1. destruct (Bool.eqb sd sd') eqn:Es; [|reflexivity]. apply eqb_prop in Es. subst sd'. cbn [andb]. destruct (Nat.eqb_spec x b) as [->|]; [exact Lb'|reflexivity]. }
  destruct S3 as (s3 & R3 & K3 & U3 & F3 & P3 & N3 & L3). pose proof (lk_trans _ _ _ K02 K3) as K03.
  exists s3. split.
  { unfold unlink. unfold getn at 1. rewrite Hu. cbn [rbind]. rewrite R1. cbn [rbind]. unfold getn at 1. rewrite U1. cbn [rbind]. rewrite R2. cbn [rbind].
    unfold getn at 1. rewrite Hnb2. cbn [rbind]. unfold getn. rewrite U2. cbn [rbind]. exact R3. }
  split; [|split; [exact K03|split; [exact U3|auto]]]. split; [|split].
  - apply (lk_inv _ _ _ _ K03). eapply inv_excl; eauto.
  - apply linv_linv'. intros b' sd' Hb'. apply (lk_live _ _ _ _ K03) in Hb'.
    assert (Hpt : forall v, live s v KU /\ points s v (side sd') (Some b') /\ excl E u (side sd) v (side sd') = false <->
       live s3 v KU /\ points s3 v (side sd') (Some b') /\ excl E u (side sd) v (side sd') = false).
    { intros v. rewrite (lk_live _ _ v KU K03), (lk_points _ _ v (side sd') (Some b') K03). reflexivity. }
    destruct (Bool.eqb sd sd') eqn:Es.
    + apply eqb_prop in Es. subst sd'. destruct (Nat.eq_dec b' b) as [->|Hne].
      * exists (l1 ++ l2). split; [exact (NoDup_remove_1 _ _ _ Hnd)|]. split.
        -- intros v. rewrite <- Hpt. split.
           ++ intros Hv. assert (Hvu : v <> u) by (intros ->; contradiction). rewrite excl_other_node by exact Hvu. apply Hin. apply in_app_or in Hv. apply in_or_app. destruct Hv; [left|right; right]; assumption.
           ++ intros (Q1 & Q2 & Q3). destruct (excl_false _ _ _ _ _ Q3) as (Q4 & Q5). assert (Hvu : v <> u) by congruence.
              assert (Hv : In v (l1 ++ u :: l2)) by (apply Hin; auto). apply in_app_or in Hv. apply in_or_app. destruct Hv as [Hv|[Hv|Hv]]; [left; exact Hv|congruence|right; exact Hv].
        -- rewrite L3, Bool.eqb_reflx, Nat.eqb_refl. cbn [andb].
           replace (if ptr_eqb (nl nb sd) (Some u) then nn n sd else nl nb sd) with (match l1 with [] => next_of s sd u | _ => lsel s sd b end).
           2:{ rewrite Nu, Lb'. rewrite Lb' in Hch. destruct l1 as [|w l1].
               - destruct Hch as (-> & _). cbn. rewrite Nat.eqb_refl. reflexivity.
               - destruct Hch as (-> & _). rewrite ptr_eqb_ne; [reflexivity|]. intros Q. injection Q as ->. apply Hnd'. left. reflexivity. }
           apply (chain_remove (next_of s sd) (prev_of s sd) (next_of s3 sd) (prev_of s3 sd) u); [| |exact Hch|exact Hnd|discriminate].
           ++ intros v. rewrite N3, N2, N1, Bool.eqb_reflx, Nu, Pu. reflexivity.
           ++ intros v. rewrite P3, P2, P1, Bool.eqb_reflx, Nu, Pu. reflexivity.
      * destruct (Hl b' sd Hb') as (l' & M1 & M2 & M3). exists l'. split; [exact M1|]. split.
        -- intros v. rewrite <- Hpt, M2. destruct (Nat.eq_dec v u) as [->|Hvu]; [|rewrite excl_other_node by exact Hvu; reflexivity].
           rewrite excl_same. split; intros (Q1 & Q2 & Q3); [|discriminate]. exfalso. apply Hne.
           pose proof (points_fun s u (side sd) (Some b') (Some b) Q2 (ex_intro _ n (conj Hu Hb))). congruence.
        -- rewrite L3. replace (b' =? b) with false by (symmetry; apply Nat.eqb_neq; exact Hne). rewrite andb_false_r.
           eapply chain_ext; [|exact M3]. intros v Hv. apply M2 in Hv as (Q1 & Q2 & Q3).
           assert (Hvl : ~ In v (l1 ++ u :: l2)).
           { intros Q. apply Hin in Q as (_ & Q & _). apply Hne. pose proof (points_fun _ _ _ _ _ Q2 Q). congruence. }
           split.
           ++ rewrite N3, N2, N1, ptr_eqb_ne; [rewrite andb_false_r; reflexivity|]. intros Q. apply Hvl, in_or_app. left.
              destruct l1 as [|w l1]; [congruence|]. destruct Epv as (w' & Hw' & Q'). rewrite Q' in Q. injection Q as ->. exact Hw'.
           ++ rewrite P3, P2, P1, ptr_eqb_ne; [rewrite andb_false_r; reflexivity|]. intros Q. apply Hvl, in_or_app. right. right.
              destruct l2 as [|w l2]; [cbn in Enx; congruence|]. rewrite Enx in Q. injection Q as ->. left. reflexivity.
    + assert (Hs : side sd' <> side sd) by (intros Q; apply side_inj in Q; subst; rewrite Bool.eqb_reflx in Es; discriminate).
      destruct (Hl b' sd' Hb') as (l' & M1 & M2 & M3). exists l'. split; [exact M1|]. split.
      * intros v. rewrite <- Hpt, M2, excl_other by congruence. reflexivity.
      * rewrite L3, Es. cbn [andb]. eapply chain_ext; [|exact M3]. intros v _. rewrite N3, N2, N1, P3, P2, P1, Es. auto.
  - exact (lk_own _ _ _ K03 Ho).
Qed.

(** ** Joining a list *)
Lemma link_ok s E X pend u n sd b : inv s E pend -> linv s (excl E u (side sd)) -> own s X -> hp s u = Some n -> nk n = KU -> nth_error (nc n) (side sd) = Some (Some b) -> E u (side sd) = false ->
  exists s', link sd u b s = Ok s' /\ good s' E X pend /\ lk s s'.
Proof.
  intros Hi Hl Ho Hu Hk Hb HE. pose proof (iv_points _ _ _ Hi _ _ _ _ Hu Hb HE) as Hlb. rewrite Hk in Hlb. cbn [target] in Hlb.
  apply linv_linv' in Hl. destruct (Hl b sd Hlb) as (l & Hnd & Hin & Hch).
  assert (Hul : ~ In u l) by (intros Q; apply Hin in Q as (_ & _ & Q); rewrite excl_same in Q; discriminate).
  destruct Hlb as (nb & Hnb & Hkb). assert (Hbu : b <> u) by (intros ->; congruence).
  assert (Lb : lsel s sd b = nl nb sd) by (unfold lsel; rewrite Hnb; reflexivity). rewrite Lb in Hch.
  set (n1 := with_n n sd (nl nb sd)). set (s1 := put s u (Some n1)). set (n2 := with_p n1 sd None). set (s2 := put s1 u (Some n2)).
  assert (U1 : hp s1 u = Some n1) by apply put_same. assert (U2 : hp s2 u = Some n2) by apply put_same.
  assert (B2 : hp s2 b = Some nb) by (unfold s2, s1; rewrite !put_other by exact Hbu; exact Hnb).
  assert (K1 : lk s s1) by (eapply lk_put; eauto). assert (K2 : lk s1 s2) by (eapply lk_put; eauto). pose proof (lk_trans _ _ _ K1 K2) as K02.
  assert (S3 : exists s3, match nl nb sd with Some v => update s2 v (fun m => with_p m sd (Some u)) | None => Ok s2 end = Ok s3 /\ lk s2 s3 /\ hp s3 b = Some nb /\
    (forall sd' x, next_of s3 sd' x = next_of s2 sd' x) /\ (forall sd' x, lsel s3 sd' x = lsel s2 sd' x) /\
    (forall sd' x, prev_of s3 sd' x = if Bool.eqb sd sd' && ptr_eqb (nl nb sd) (Some x) then Some u else prev_of s2 sd' x)).
  { destruct (nl nb sd) as [v|] eqn:Ev.
    - assert (Hv : In v l) by (destruct l; [discriminate|]; destruct Hch as (Q & _); injection Q as ->; left; reflexivity).
      assert (Hvu : v <> u) by congruence.
      destruct (proj1 (Hin v) Hv) as ((m & Hm & Hkm) & _).
      assert (Hm2 : hp s2 v = Some m) by (unfold s2, s1; rewrite !put_other by exact Hvu; exact Hm).
      exists (put s2 v (Some (with_p m sd (Some u)))). unfold update, getn. rewrite Hm2. split; [reflexivity|]. split; [eapply lk_put; eauto|].
      split; [rewrite put_other by (intros ->; congruence); exact B2|]. split; [intros; apply next_p, Hm2|]. split; [intros; apply lsel_p, Hm2|].
      intros sd' x. rewrite prev_p by exact Hm2. cbn [ptr_eqb]. rewrite (Nat.eqb_sym v x). reflexivity.
    - exists s2. split; [reflexivity|]. split; [apply lk_refl|]. split; [exact B2|]. split; [reflexivity|]. split; [reflexivity|].
      intros. cbn [ptr_eqb]. rewrite andb_false_r. reflexivity. }
  destruct S3 as (s3 & R3 & K3 & B3 & N3 & L3 & P3).
  set (s4 := put s3 b (Some (with_l nb sd (Some u)))).
  assert (K4 : lk s3 s4) by (eapply lk_put; eauto; cbn; congruence).
  pose proof (lk_trans _ _ _ (lk_trans _ _ _ K02 K3) K4) as K.
  exists s4. split.
  { unfold link. unfold getn at 1. rewrite Hnb. cbn [rbind]. unfold update at 1. unfold getn at 1. rewrite Hu. cbn [rbind].
    fold n1. fold s1. unfold update at 1. unfold getn at 1. rewrite U1. cbn [rbind]. fold n2. fold s2. unfold getn at 1. rewrite B2. cbn [rbind]. rewrite R3. cbn [rbind].
    unfold update, getn. rewrite B3. reflexivity. }
  assert (N4 : forall sd' x, next_of s4 sd' x = if Bool.eqb sd sd' && (x =? u) then nl nb sd else next_of s sd' x).
  { intros. unfold s4. rewrite next_l by exact B3. rewrite N3. unfold s2, n2. rewrite next_p by exact U1. unfold s1, n1. apply next_n, Hu. }
  assert (P4 : forall sd' x, prev_of s4 sd' x = if Bool.eqb sd sd' && ptr_eqb (nl nb sd) (Some x) then Some u else if Bool.eqb sd sd' && (x =? u) then None else prev_of s sd' x).
  { intros. unfold s4. rewrite prev_l by exact B3. rewrite P3. unfold s2, n2. rewrite prev_p by exact U1. unfold s1, n1. rewrite prev_n by exact Hu. reflexivity. }
  assert (L4 : forall sd' x, lsel s4 sd' x = if Bool.eqb sd sd' && (x =? b) then Some u else lsel s sd' x).
  { intros. unfold s4. rewrite lsel_l by exact B3. rewrite L3. unfold s2, n2. rewrite lsel_p by exact U1. unfold s1, n1. rewrite lsel_n by exact Hu. reflexivity. }
  split; [|exact K]. split; [exact (lk_inv _ _ _ _ K Hi)|]. split; [|exact (lk_own _ _ _ K Ho)].
  apply linv_linv'. intros b' sd' Hb'. apply (lk_live _ _ _ _ K) in Hb'.
  assert (Hpt : forall v, live s v KU /\ points s v (side sd') (Some b') /\ E v (side sd') = false <->
     live s4 v KU /\ points s4 v (side sd') (Some b') /\ E v (side sd') = false).
  { intros v. rewrite (lk_live _ _ v KU K), (lk_points _ _ v (side sd') (Some b') K). reflexivity. }
  destruct (Bool.eqb sd sd') eqn:Es.
  - apply eqb_prop in Es. subst sd'. destruct (Nat.eq_dec b' b) as [->|Hne].
    + exists (u :: l). split; [constructor; assumption|]. split.
      * intros v. rewrite <- Hpt. split.
        -- intros [<-|Hv]; [split; [exists n; auto|]; split; [exists n; auto|exact HE]|]. apply Hin in Hv as (Q1 & Q2 & Q3). apply excl_false in Q3 as (Q3 & _). auto.
        -- intros (Q1 & Q2 & Q3). destruct (Nat.eq_dec v u) as [->|Hvu]; [left; reflexivity|right]. apply Hin. rewrite excl_other_node by exact Hvu. auto.
      * rewrite L4, Bool.eqb_reflx, Nat.eqb_refl. cbn [andb chain]. split; [reflexivity|].
        assert (Hfu : nl nb sd <> Some u) by (intros Q; destruct l; [cbn in Hch; congruence|]; destruct Hch as (Q' & _); rewrite Q' in Q; injection Q as ->; apply Hul; left; reflexivity).
        split; [rewrite P4, Bool.eqb_reflx, Nat.eqb_refl, ptr_eqb_ne by exact Hfu; reflexivity|]. rewrite N4, Bool.eqb_reflx, Nat.eqb_refl. cbn [andb].
        assert (Hnx : forall v, In v l -> next_of s4 sd v = next_of s sd v).
        { intros v Hv. rewrite N4. replace (v =? u) with false by (symmetry; apply Nat.eqb_neq; congruence). rewrite andb_false_r. reflexivity. }
        destruct l as [|v l]; [exact Hch|]. destruct Hch as (Q1 & Q2 & Q3). split; [exact Q1|]. split.
        -- rewrite P4, Bool.eqb_reflx, Q1. cbn. rewrite Nat.eqb_refl. reflexivity.
        -- rewrite Hnx by (left; reflexivity). eapply chain_ext; [|exact Q3]. intros w Hw. split; [apply Hnx; right; exact Hw|].
           rewrite P4, Q1, ptr_eqb_ne; [|intros Q; injection Q as ->; inversion Hnd; subst; contradiction]. rewrite andb_false_r.
           replace (w =? u) with false by (symmetry; apply Nat.eqb_neq; intros ->; apply Hul; right; exact Hw). rewrite andb_false_r. reflexivity.
    + destruct (Hl b' sd Hb') as (l' & M1 & M2 & M3). exists l'. split; [exact M1|]. split.
      * intros v. rewrite <- Hpt, M2. destruct (Nat.eq_dec v u) as [->|Hvu]; [|rewrite excl_other_node by exact Hvu; reflexivity].
        rewrite excl_same. split; intros (Q1 & Q2 & Q3); [discriminate|]. exfalso. apply Hne.
        pose proof (points_fun s u (side sd) (Some b') (Some b) Q2 (ex_intro _ n (conj Hu Hb))). congruence.
      * rewrite L4. replace (b' =? b) with false by (symmetry; apply Nat.eqb_neq; exact Hne). rewrite andb_false_r.
        eapply chain_ext; [|exact M3]. intros v Hv. apply M2 in Hv as (Q1 & Q2 & Q3).
        assert (Hvu : v <> u) by (intros ->; rewrite excl_same in Q3; discriminate).
        assert (Hvl : ~ In v l) by (intros Q; apply Hin in Q as (_ & Q & _); apply Hne; pose proof (points_fun _ _ _ _ _ Q2 Q); congruence).
        rewrite N4, P4. replace (v =? u) with false by (symmetry; apply Nat.eqb_neq; exact Hvu). rewrite !andb_false_r.
        split; [reflexivity|]. rewrite ptr_eqb_ne; [rewrite andb_false_r; reflexivity|]. intros Q. apply Hvl. destruct l as [|w l]; [cbn in Hch; congruence|]. destruct Hch as (Q' & _). rewrite Q' in Q. injection Q as ->. left. reflexivity.
  - assert (Hs : side sd' <> side sd) by (intros Q; apply side_inj in Q; subst; rewrite Bool.eqb_reflx in Es; discriminate).
    destruct (Hl b' sd' Hb') as (l' & M1 & M2 & M3). exists l'. split; [exact M1|]. split.
    + intros v. rewrite <- Hpt, M2, excl_other by congruence. reflexivity.
    + rewrite L4, Es. cbn [andb]. eapply chain_ext; [|exact M3]. intros v _. rewrite N4, P4, Es. auto.
Qed.
