(** * Reference counting: uniform matrices and H2-matrices *)
From Coq Require Import Arith Lia List Bool.
From Verif Require Import Prog HmSpec HmP RefHeap RefSpec RefP RefP2 RefP3.
Import ListNotations.

(** ** Writing pointers *)
Lemma set_fwd s o n i t x m : hp s o = Some n -> hp s x = Some m ->
  exists m', hp (put s o (Some (with_c n i t))) x = Some m' /\ nk m' = nk m /\ nr m' = nr m /\ nu m' = nu m /\ nl m' = nl m /\ length (nc m') = length (nc m).
Proof.
  intros Ho Hx. destruct (Nat.eq_dec x o) as [->|Hne].
  - rewrite Ho in Hx. injection Hx as <-. exists (with_c n i t). rewrite put_same. cbn. rewrite lset_length. auto 6.
  - exists m. rewrite put_other by exact Hne. auto 6.
Qed.
Lemma set_bwd s o n i t x m' : hp s o = Some n -> hp (put s o (Some (with_c n i t))) x = Some m' ->
  exists m, hp s x = Some m /\ nk m' = nk m /\ nr m' = nr m /\ nu m' = nu m /\ nl m' = nl m /\ length (nc m') = length (nc m) /\
    (forall j, (x, j) <> (o, i) -> nth_error (nc m') j = nth_error (nc m) j).
Proof.
  intros Ho Hx. destruct (Nat.eq_dec x o) as [->|Hne].
  - rewrite put_same in Hx. injection Hx as <-. exists n. cbn. rewrite lset_length. repeat (split; [auto|]). intros j Hj. apply lset_other. congruence.
  - rewrite put_other in Hx by exact Hne. exists m'. auto 8.
Qed.
Lemma set_live s o n i t x k : hp s o = Some n -> live s x k <-> live (put s o (Some (with_c n i t))) x k.
Proof.
  intros Ho. split; intros (m & Hm & Hk).
  - destruct (set_fwd s o n i t x m Ho Hm) as (m' & Hm' & E & _). exists m'. split; [exact Hm'|congruence].
  - destruct (set_bwd s o n i t x m Ho Hm) as (m' & Hm' & E & _). exists m'. split; [exact Hm'|congruence].
Qed.
Definition incopt (pend : nat -> nat) (t : option nat) : nat -> nat := match t with Some y => inc pend y | None => pend end.
Lemma inv_set s E pend o n i t : inv s (excl E o i) (incopt pend t) -> hp s o = Some n -> i < length (nc n) -> E o i = false -> live_opt s t (target (nk n) i) ->
  inv (put s o (Some (with_c n i t))) E pend.
Proof.
  intros Hi Ho Hlen HE Ht. constructor.
  - intros x m Hx. destruct (set_bwd _ _ _ _ _ _ _ Ho Hx) as (m0 & Hm0 & _). exact (iv_next _ _ _ Hi _ _ Hm0).
  - intros x m Hx. destruct (set_bwd _ _ _ _ _ _ _ Ho Hx) as (m0 & Hm0 & A1 & A2 & A3 & A4 & A5 & _). destruct (iv_shape _ _ _ Hi _ _ Hm0) as (B1 & B2 & B3 & B4 & B5).
    unfold shape. rewrite A1, A2, A3, A4, A5. auto.
  - intros x m Hx. destruct (set_bwd _ _ _ _ _ _ _ Ho Hx) as (m0 & Hm0 & A1 & A2 & _). rewrite A2, (iv_refs _ _ _ Hi _ _ Hm0).
    rewrite (cnt_set s E o n i t x Ho (iv_next _ _ _ Hi _ _ Ho) Hlen HE). destruct t as [y|]; cbn [incopt ptr_eqb]; [unfold inc; rewrite (Nat.eqb_sym y x)|]; lia.
  - intros p m j y Hp Hy HEj. destruct (set_bwd _ _ _ _ _ _ _ Ho Hp) as (m0 & Hm0 & A1 & _ & _ & _ & _ & A6). apply (set_live s o n i t y _ Ho).
    destruct (Nat.eq_dec p o) as [->|Hne]; [destruct (Nat.eq_dec j i) as [->|Hji]|].
    + rewrite put_same in Hp. injection Hp as <-. cbn in Hy. rewrite lset_same in Hy by exact Hlen. injection Hy as ->. exact Ht.
    + rewrite A6 in Hy by congruence. rewrite A1. apply (iv_points _ _ _ Hi _ _ _ _ Hm0 Hy). rewrite excl_other by congruence. exact HEj.
    + rewrite A6 in Hy by congruence. rewrite A1. apply (iv_points _ _ _ Hi _ _ _ _ Hm0 Hy). rewrite excl_other by congruence. exact HEj.
  - intros y Hy. destruct (iv_pend _ _ _ Hi y) as (m & Hm).
    + destruct t as [z|]; cbn [incopt]; [unfold inc; lia|exact Hy].
    + destruct (set_fwd s o n i t y m Ho Hm) as (m' & Hm' & _). eauto.
Qed.
Lemma own_set s X o n i t : own s X -> hp s o = Some n -> own (put s o (Some (with_c n i t))) X.
Proof.
  intros (O1 & O2 & O3) Ho. split; [|split].
  - intros x m u Hx Hu HX. destruct (set_bwd _ _ _ _ _ _ _ Ho Hx) as (m0 & Hm0 & A1 & A2 & A3 & _). apply (set_live s o n i t u _ Ho). rewrite A3 in Hu. exact (O1 x m0 u Hm0 Hu HX).
  - intros x m y m2 u Hx Hu Hy Hu2. destruct (set_bwd _ _ _ _ _ _ _ Ho Hx) as (m0 & Hm0 & _ & _ & A3 & _). destruct (set_bwd _ _ _ _ _ _ _ Ho Hy) as (m1 & Hm1 & _ & _ & B3 & _).
    rewrite A3 in Hu. rewrite B3 in Hu2. exact (O2 x m0 y m1 u Hm0 Hu Hm1 Hu2).
  - intros x m Hx HX. destruct (set_bwd _ _ _ _ _ _ _ Ho Hx) as (m0 & Hm0 & A1 & A2 & _). rewrite A1, A2. exact (O3 x m0 Hm0 HX).
Qed.
Lemma linv_set s E o n i t : linv s (excl E o i) -> hp s o = Some n -> linv (put s o (Some (with_c n i t))) (excl E o i).
Proof.
  intros Hl Ho. apply linv_linv' in Hl. apply linv_linv'. intros b sd Hb. apply (set_live s o n i t b KB Ho) in Hb. destruct (Hl b sd Hb) as (l & A1 & A2 & A3).
  exists l. split; [exact A1|]. split.
  - intros u. rewrite A2, <- (set_live s o n i t u KU Ho). split; intros (Q1 & Q2 & Q3); (split; [exact Q1|split; [|exact Q3]]); destruct (excl_false _ _ _ _ _ Q3) as (_ & Q4).
    + destruct Q2 as (m & Hm & Hp). destruct (Nat.eq_dec u o) as [->|Hne].
      * exists (with_c n i t). rewrite put_same. split; [reflexivity|]. cbn. rewrite lset_other by congruence. congruence.
      * exists m. rewrite put_other by exact Hne. auto.
    + destruct Q2 as (m & Hm & Hp). destruct (set_bwd _ _ _ _ _ _ _ Ho Hm) as (m0 & Hm0 & _ & _ & _ & _ & _ & A6). exists m0. split; [exact Hm0|]. rewrite <- A6 by congruence. exact Hp.
  - replace (lsel (put s o (Some (with_c n i t))) sd b) with (lsel s sd b).
    + eapply chain_ext; [|exact A3]. intros u _. unfold next_of, prev_of. cbn. destruct (Nat.eqb_spec u o) as [->|]; [rewrite Ho|]; auto.
    + unfold lsel. cbn. destruct (Nat.eqb_spec b o) as [->|]; [rewrite Ho|]; reflexivity.
Qed.
Lemma linv_unexcl s E o n i : linv s (excl E o i) -> hp s o = Some n -> nk n <> KU \/ nth_error (nc n) i = Some None -> linv s E.
Proof.
  intros Hl Ho [Hk|Hn].
  - eapply linv_E; [exact Hl|]. intros u sd (m & Hm & Hu). symmetry. apply excl_other_node. intros ->. congruence.
  - intros b m sd Hb Hk. destruct (Hl b m sd Hb Hk) as (l & A1 & A2 & A3). exists l. split; [exact A1|]. split; [|exact A3]. intros u. rewrite A2.
    split; intros (Q1 & Q2 & Q3); (split; [exact Q1|split; [exact Q2|]]).
    + apply excl_false in Q3. tauto.
    + rewrite excl_other; [exact Q3|]. intros Q. injection Q as -> Q. destruct Q2 as (m' & Hm' & Hp). rewrite Q in Hp. congruence.
Qed.

(** ** Uniform matrices *)
Lemma cpl_U s E pend d u i : inv s E pend -> live s u KU -> forall y, live s y KB -> cpl s E d y -> cpl s (excl E u i) d y.
Proof.
  intros Hi (nu0 & Hu & Hku). induction d as [|d IH]; intros y (n0 & Hy0 & Hk) H; [exact H|]. destruct H as (n & Hn & C1 & C2). rewrite Hn in Hy0. injection Hy0 as <-.
  exists n. split; [exact Hn|]. split.
  - intros j p Hp. destruct (C1 j p Hp) as (HE & z & -> & Hz). split; [rewrite excl_other_node; [exact HE|intros ->; congruence]|]. exists z. split; [reflexivity|].
    apply IH; [|exact Hz]. pose proof (iv_points _ _ _ Hi _ _ _ _ Hn Hp HE) as Q. rewrite Hk in Q. exact Q.
  - intros v Hv. destruct (iv_shape _ _ _ Hi _ _ Hn) as (_ & _ & _ & Q & _). rewrite Q in Hv by congruence. discriminate.
Qed.

(** How the heap changes outside of one structure *)
Record evob (A : kind -> bool) (u : nat) (s s' : heap) : Prop := {
  eb_nx : nx s' = nx s;
  eb_none : forall l, l <> u -> hp s l = None -> hp s' l = None;
  eb_kind : forall l n, l <> u -> hp s l = Some n -> A (nk n) = false -> hp s' l = Some n;
  eb_zero : forall l n, l <> u -> hp s l = Some n -> nr n = 0 -> nk n <> KU -> hp s' l = Some n;
  eb_same : forall l n n', l <> u -> hp s l = Some n -> hp s' l = Some n' -> nk n' = nk n /\ nc n' = nc n /\ nu n' = nu n /\ (nr n' = 0 -> nr n = 0) }.
Lemma evob_trans A u s1 s2 s3 : evob A u s1 s2 -> evob A u s2 s3 -> evob A u s1 s3.
Proof.
  intros [A1 A2 A3 A4 A5] [B1 B2 B3 B4 B5]. constructor; eauto; [congruence|].
  intros l n n' Hl H H'. destruct (hp s2 l) as [m|] eqn:Em.
  - destruct (A5 _ _ _ Hl H Em) as (E1 & E2 & E3 & E4). destruct (B5 _ _ _ Hl Em H') as (F1 & F2 & F3 & F4). repeat split; try congruence. auto.
  - rewrite (B2 _ Hl Em) in H'. discriminate.
Qed.
Lemma evob_refl A u s : evob A u s s.
Proof. constructor; auto. intros l n n' _ H H'. rewrite H in H'. injection H' as <-. auto. Qed.
Definition isBU (k : kind) : bool := only KB k || only KU k.
Lemma cpl_evob A u s s' E pend pend' d : evob A u s s' -> live s u KU -> inv s E pend -> inv s' E pend' -> forall y, live s y KB -> live s' y KB -> cpl s E d y -> cpl s' E d y.
Proof.
  intros He (nu0 & Hu & Hku) Hi Hi'. induction d as [|d IH]; intros y (n0 & Hy0 & Hk) (n' & Hn' & Hk') H; [exact H|]. destruct H as (n & Hn & C1 & C2). rewrite Hn in Hy0. injection Hy0 as <-.
  assert (Hyu : y <> u) by (intros ->; congruence).
  destruct (eb_same _ _ _ _ He _ _ _ Hyu Hn Hn') as (E1 & E2 & E3 & _). exists n'. split; [exact Hn'|]. rewrite E2, E3. split.
  - intros j p Hp. destruct (C1 j p Hp) as (HE & z & -> & Hz). split; [exact HE|]. exists z. split; [reflexivity|]. apply IH; [| |exact Hz].
    + pose proof (iv_points _ _ _ Hi _ _ _ _ Hn Hp HE) as Q. rewrite Hk in Q. exact Q.
    + rewrite <- E2 in Hp. pose proof (iv_points _ _ _ Hi' _ _ _ _ Hn' Hp HE) as Q. rewrite Hk' in Q. exact Q.
  - intros v Hv. destruct (iv_shape _ _ _ Hi _ _ Hn) as (_ & _ & _ & Q & _). rewrite Q in Hv by congruence. discriminate.
Qed.

Lemma unref_uniform_ok fuel s E X pend u n sd b : good s E X pend -> hp s u = Some n -> nk n = KU -> nth_error (nc n) (side sd) = Some (Some b) -> E u (side sd) = false -> cpl s E fuel b ->
  exists s3 s4, unref_uniform fuel sd u s = Ok (put s4 u (Some (with_c n (side sd) None))) /\
    good (put s4 u (Some (with_c n (side sd) None))) E X pend /\ lk s s3 /\ evo (only KB) s3 s4 /\ hp s4 u = Some n /\
    good s4 (excl E u (side sd)) X pend /\ evob isBU u s (put s4 u (Some (with_c n (side sd) None))).
Proof.
  intros Hg Hu Hk Hb HE Hc. pose proof Hg as (Hi & Hl & Ho).
  destruct (unlink_ok s E X pend u n sd b Hg Hu Hk Hb HE) as (s3 & R3 & Hg3 & K3 & U3 & F3).
  pose proof (iv_points _ _ _ Hi _ _ _ _ Hu Hb HE) as Hlb. rewrite Hk in Hlb. cbn [target] in Hlb.
  assert (Hlu : live s u KU) by (exists n; auto).
  destruct (unref_tree_ok KB (or_introl eq_refl) fuel b s3 (excl E u (side sd)) X (inc pend b) Hg3) as (s4 & R4 & Hg4 & He).
  - unfold inc. rewrite Nat.eqb_refl. lia.
  - apply (lk_live _ _ _ _ K3), Hlb.
  - apply (lk_cpl _ _ _ _ _ K3). eapply cpl_U; eauto.
  - assert (U4 : hp s4 u = Some n) by (apply (ev_kind _ _ _ He u n U3); rewrite Hk; reflexivity).
    assert (Hg4' : good s4 (excl E u (side sd)) X pend).
    { eapply good_pend; [exact Hg4|]. intros z. unfold dec, inc. destruct (z =? b); lia. }
    exists s3, s4. split.
    { unfold unref_uniform. unfold getn at 1. rewrite Hu. cbn [rbind]. unfold slot. rewrite Hb. cbn [rbind]. rewrite R3. cbn [rbind]. rewrite R4. cbn [rbind]. unfold update, getn. rewrite U4. reflexivity. }
    destruct Hg4' as (Hi4 & Hl4 & Ho4).
    assert (Hlen : side sd < length (nc n)) by (apply nth_error_Some; congruence).
    split; [|split; [exact K3|split; [exact He|split; [exact U4|split; [split; auto|]]]]].
    + split; [apply (inv_set s4 E pend u n (side sd) None); [exact Hi4|exact U4|exact Hlen|exact HE|exact I]|]. split; [|exact (own_set _ _ _ _ _ _ Ho4 U4)].
      eapply linv_unexcl; [exact (linv_set _ _ _ _ _ _ Hl4 U4)|apply put_same|]. right. cbn. apply lset_same. exact Hlen.
    + constructor.
      * cbn. rewrite (ev_nx _ _ _ He). apply K3.
      * intros l Hlu' Hln. rewrite put_other by exact Hlu'. apply (ev_none _ _ _ He). destruct K3 as (_ & K3). specialize (K3 l). rewrite Hln in K3. destruct (hp s3 l); [contradiction|reflexivity].
      * intros l m Hlu' Hlm HA. rewrite put_other by exact Hlu'. apply (ev_kind _ _ _ He); [|destruct (nk m); try reflexivity; discriminate].
        apply F3; [exact Hlm| |]; [intros Q; rewrite Q in HA; discriminate|]. intros ->. destruct Hlb as (nb & Hnb & Hkb). rewrite Hlm in Hnb. injection Hnb as <-. rewrite Hkb in HA. discriminate.
      * intros l m Hlu' Hlm Hr HU. rewrite put_other by exact Hlu'. apply (ev_zero _ _ _ He); [|exact Hr|exact HU]. apply F3; [exact Hlm|exact HU|]. intros ->.
        pose proof (iv_refs _ _ _ Hi _ _ Hlm). pose proof (cnt_pos s E u n (side sd) b Hu (iv_next _ _ _ Hi _ _ Hu) Hb HE). lia.
      * intros l m m' Hlu' Hlm Hlm'. rewrite put_other in Hlm' by exact Hlu'. destruct (lk_fwd _ _ _ _ K3 Hlm) as (m3 & Hm3 & B1 & B2 & B3 & B4 & _).
        destruct (ev_same _ _ _ He _ _ _ Hm3 Hlm') as (C1 & C2 & C3 & C4). repeat split; try congruence. rewrite <- B2. exact C4.
Qed.

(** Pointers that can be released *)
Definition slot_ok (s : heap) (E : nat -> nat -> bool) (fuel : nat) (n : node) (sd : bool) : Prop := exists p, nth_error (nc n) (side sd) = Some p /\
  match p with Some b => cpl s E fuel b | None => nn n sd = None /\ np n sd = None end.
Lemma unref_uniform_any fuel s E X pend u n sd : good s E X pend -> hp s u = Some n -> nk n = KU -> E u (side sd) = false -> slot_ok s E fuel n sd ->
  exists s' n', unref_uniform fuel sd u s = Ok s' /\ good s' E X pend /\ evob isBU u s s' /\ hp s' u = Some n' /\
    nk n' = nk n /\ nr n' = nr n /\ nn n' = nn n /\ np n' = np n /\ length (nc n') = length (nc n) /\
    nth_error (nc n') (side sd) = Some None /\ nth_error (nc n') (side (negb sd)) = nth_error (nc n) (side (negb sd)).
Proof.
  intros Hg Hu Hk HE (p & Hp & Hc). assert (Hlen : side sd < length (nc n)) by (apply nth_error_Some; congruence). destruct p as [b|].
  - destruct (unref_uniform_ok fuel s E X pend u n sd b Hg Hu Hk Hp HE Hc) as (s3 & s4 & R & Hg' & _ & _ & _ & _ & He).
    eexists _, (with_c n (side sd) None). split; [exact R|]. split; [exact Hg'|]. split; [exact He|]. split; [apply put_same|]. cbn. rewrite lset_length. repeat (split; [reflexivity|]).
    split; [apply lset_same; exact Hlen|]. apply lset_other. destruct sd; cbn; lia.
  - exists s, n. destruct Hc as (C1 & C2). split; [unfold unref_uniform, getn, slot; rewrite Hu; cbn [rbind]; rewrite Hp; cbn [rbind]; rewrite C1, C2; reflexivity|].
    split; [exact Hg|]. split; [apply evob_refl|]. split; [exact Hu|]. repeat (split; [reflexivity|]). split; [exact Hp|reflexivity].
Qed.

Lemma good_freeU s E X pend u n : good s E X pend -> hp s u = Some n -> nk n = KU -> (forall i p, nth_error (nc n) i = Some p -> p = None) ->
  (forall x m, hp s x = Some m -> nu m = Some u -> X x = true) -> good (put s u None) E X pend.
Proof.
  intros (Hi & Hl & Ho) Hu Hk Hp HX. destruct (iv_shape _ _ _ Hi _ _ Hu) as (_ & _ & _ & _ & Hr0). specialize (Hr0 Hk).
  pose proof (iv_refs _ _ _ Hi _ _ Hu) as Hru.
  assert (Hc : forall y, cnt (put s u None) E y = cnt s E y).
  { intros y. apply cnt_ext; [reflexivity|]. intros p _. destruct (Nat.eq_dec p u) as [->|Hne].
    - rewrite put_same, Hu. unfold ncnt. apply nsum_zero. intros i Hi'. unfold hit. destruct (nth_error (nc n) i) as [q|] eqn:Eq; [|destruct (E u i); reflexivity]. rewrite (Hp i q Eq). destruct (E u i); reflexivity.
    - rewrite put_other by exact Hne. destruct (hp s p); auto. }
  assert (Back : forall x m, hp (put s u None) x = Some m -> x <> u /\ hp s x = Some m).
  { intros x m H. destruct (Nat.eq_dec x u) as [->|Hne]; [rewrite put_same in H; discriminate|]. rewrite put_other in H by exact Hne. auto. }
  split; [constructor|split].
  - intros x m Hx. apply Back in Hx as (_ & Hx). exact (iv_next _ _ _ Hi _ _ Hx).
  - intros x m Hx. apply Back in Hx as (_ & Hx). exact (iv_shape _ _ _ Hi _ _ Hx).
  - intros x m Hx. apply Back in Hx as (_ & Hx). rewrite Hc. exact (iv_refs _ _ _ Hi _ _ Hx).
  - intros p m i t Hpm Ht HE. apply Back in Hpm as (_ & Hpm). destruct (iv_points _ _ _ Hi _ _ _ _ Hpm Ht HE) as (mt & Hmt & Hkt). exists mt. split; [|exact Hkt].
    rewrite put_other; [exact Hmt|]. intros ->. exact (cnt0_points s E pend u n p m i Hi Hu Hr0 Hpm HE Ht).
  - intros t Ht. destruct (iv_pend _ _ _ Hi t Ht) as (m & Hm). exists m. rewrite put_other; [exact Hm|]. intros ->. lia.
  - intros b m sd Hb Hkb. apply Back in Hb as (Hbu & Hb). destruct (Hl b m sd Hb Hkb) as (l & A1 & A2 & A3). exists l. split; [exact A1|].
    assert (Hul : ~ In u l).
    { intros Q. apply A2 in Q as (_ & (m' & Hm' & Q) & _). rewrite Hu in Hm'. injection Hm' as <-. specialize (Hp _ _ Q). discriminate. }
    split.
    + intros v. rewrite A2. split; intros (Q1 & Q2 & Q3).
      * assert (v <> u) by (intros ->; apply Hul, A2; auto). unfold live, points. rewrite !put_other by assumption. auto.
      * destruct Q1 as (m1 & Hm1 & Hk1), Q2 as (m2 & Hm2 & Hp2). apply Back in Hm1 as (_ & Hm1). apply Back in Hm2 as (_ & Hm2). split; [exists m1; auto|]. split; [exists m2; auto|exact Q3].
    + eapply chain_ext; [|exact A3]. intros v Hv. unfold next_of, prev_of. rewrite put_other by congruence. auto.
  - destruct Ho as (O1 & O2 & O3). split; [|split].
    + intros x m v Hx Hv HXx. apply Back in Hx as (_ & Hx). destruct (O1 x m v Hx Hv HXx) as (mv & Hmv & Hkv). exists mv. split; [|exact Hkv]. rewrite put_other; [exact Hmv|]. intros ->. specialize (HX x m Hx Hv). congruence.
    + intros x m y m2 v Hx Hv Hy Hv2. apply Back in Hx as (_ & Hx). apply Back in Hy as (_ & Hy). exact (O2 x m y m2 v Hx Hv Hy Hv2).
    + intros x m Hx HXx. apply Back in Hx as (_ & Hx). exact (O3 x m Hx HXx).
Qed.

Lemma del_uniform_ok fuel s E X pend u n : good s E X pend -> hp s u = Some n -> nk n = KU -> (forall sd, E u (side sd) = false) -> (forall sd, slot_ok s E fuel n sd) ->
  (forall x m, hp s x = Some m -> nu m = Some u -> X x = true) ->
  exists s', del_uniform fuel u s = Ok s' /\ good s' E X pend /\ evo isBU s s' /\ hp s' u = None.
Proof.
  intros Hg Hu Hk HE Hs HX. pose proof Hg as (Hi & _).
  destruct (unref_uniform_any fuel s E X pend u n false Hg Hu Hk (HE false) (Hs false)) as (s1 & n1 & R1 & Hg1 & He1 & U1 & A1 & A2 & A3 & A4 & A5 & A6 & A7).
  assert (Hs1 : slot_ok s1 E fuel n1 true).
  { destruct (Hs true) as (p & Hp & Hc). exists p. change (side (negb false)) with (side true) in A7. rewrite A7, A3, A4. split; [exact Hp|]. destruct p as [c|]; [|exact Hc].
    pose proof Hg1 as (Hi1 & _). eapply cpl_evob; [exact He1|exists n; auto|exact Hi|exact Hi1| | |exact Hc].
    - pose proof (iv_points _ _ _ Hi _ _ _ _ Hu Hp (HE true)) as Q. rewrite Hk in Q. exact Q.
    - rewrite <- A7 in Hp. pose proof (iv_points _ _ _ Hi1 _ _ _ _ U1 Hp (HE true)) as Q. rewrite A1, Hk in Q. exact Q. }
  destruct (unref_uniform_any fuel s1 E X pend u n1 true Hg1 U1 ltac:(congruence) (HE true) Hs1) as (s2 & n2 & R2 & Hg2 & He2 & U2 & B1 & B2 & B3 & B4 & B5 & B6 & B7).
  exists (put s2 u None). split; [unfold del_uniform; rewrite R1; cbn [rbind]; rewrite R2; cbn [rbind]; unfold getn; rewrite U2; reflexivity|].
  pose proof (evob_trans _ _ _ _ _ He1 He2) as He. pose proof Hg2 as (Hi2 & _).
  split; [|split; [|apply put_same]].
  - eapply good_freeU; [exact Hg2|exact U2|congruence| |].
    + intros i p Hp. destruct (iv_shape _ _ _ Hi _ _ Hu) as (Hlen & _). specialize (Hlen Hk).
      assert (i < 2) by (rewrite <- Hlen, <- A5, <- B5; apply nth_error_Some; congruence).
      change (side (negb true)) with (side false) in B7. rewrite A6 in B7. change (side true) with 1 in B6. change (side false) with 0 in B7. destruct i as [|[|i]]; [congruence|congruence|lia].
    + intros x m Hx Hm. destruct (hp s x) as [m0|] eqn:E0.
      * apply (HX x m0 E0). destruct (Nat.eq_dec x u) as [->|Hne].
        -- destruct (iv_shape _ _ _ Hi2 _ _ U2) as (_ & _ & _ & Q & _). rewrite U2 in Hx. injection Hx as <-. rewrite Q in Hm by congruence. discriminate.
        -- destruct (eb_same _ _ _ _ He _ _ _ Hne E0 Hx) as (_ & _ & Q & _). congruence.
      * exfalso. assert (x <> u) by (intros ->; congruence). rewrite (eb_none _ _ _ _ He x) in Hx by assumption. discriminate.
  - constructor.
    + cbn. apply (eb_nx _ _ _ _ He).
    + intros l Hl. assert (l <> u) by (intros ->; congruence). rewrite put_other by assumption. apply (eb_none _ _ _ _ He); assumption.
    + intros l m Hl HA. assert (l <> u) by (intros ->; rewrite Hu in Hl; injection Hl as <-; rewrite Hk in HA; discriminate). rewrite put_other by assumption. apply (eb_kind _ _ _ _ He); assumption.
    + intros l m Hl Hr HU. assert (l <> u) by (intros ->; congruence). rewrite put_other by assumption. apply (eb_zero _ _ _ _ He); assumption.
    + intros l m m' Hl Hl'. assert (l <> u) by (intros ->; rewrite put_same in Hl'; discriminate). rewrite put_other in Hl' by assumption. eapply (eb_same _ _ _ _ He); eauto.
Qed.

(** ** H2-matrices *)
Definition isBUH (k : kind) : bool := only KB k || only KU k || only KH k.

Lemma unref_slot_ok fuel s E X pend x n i y : good s E X pend -> hp s x = Some n -> nr n = 0 -> nk n = KH -> i < 2 -> nth_error (nc n) i = Some (Some y) -> E x i = false -> cpl s E fuel y ->
  exists s', unref_slot (unref_tree fuel) x i s = Ok s' /\ good s' (excl E x i) X pend /\ evo (only KB) s s' /\ hp s' x = Some n.
Proof.
  intros Hg Hx Hr Hk Hi2 Hy HE Hc. pose proof Hg as (Hi & Hl & Ho). assert (HkU : nk n <> KU) by congruence.
  pose proof (iv_points _ _ _ Hi _ _ _ _ Hx Hy HE) as Hly. rewrite Hk in Hly. cbn [target] in Hly. apply Nat.ltb_lt in Hi2. rewrite Hi2 in Hly.
  pose proof Hly as (ny & Hny & Hky).
  destruct (unref_tree_ok KB (or_introl eq_refl) fuel y s (excl E x i) X (inc pend y)) as (s' & R & Hg' & He).
  - eapply good_excl; eauto.
  - unfold inc. rewrite Nat.eqb_refl. lia.
  - exact Hly.
  - eapply cpl_excl; eauto. left. rewrite (iv_refs _ _ _ Hi _ _ Hny). pose proof (cnt_pos s E x n i y Hx (iv_next _ _ _ Hi _ _ Hx) Hy HE). lia.
  - exists s'. split; [unfold unref_slot, getn, slot; rewrite Hx; cbn [rbind]; rewrite Hy; exact R|]. split; [|split; [exact He|apply (ev_zero _ _ _ He x n Hx Hr HkU)]].
    eapply good_pend; [exact Hg'|]. intros z. unfold dec, inc. destruct (z =? y); lia.
Qed.

Lemma isBU_BUH k : isBU k = true -> isBUH k = true.
Proof. destruct k; cbn; auto. Qed.
Lemma isB_BUH k : only KB k = true -> isBUH k = true.
Proof. destruct k; cbn; auto. Qed.

Lemma live_pos s E pend p n j z : inv s E pend -> hp s p = Some n -> nth_error (nc n) j = Some (Some z) -> E p j = false -> exists nz, hp s z = Some nz /\ nk nz = target (nk n) j /\ 0 < nr nz.
Proof.
  intros Hi Hp Hz HE. destruct (iv_points _ _ _ Hi _ _ _ _ Hp Hz HE) as (nz & Hnz & Hk). exists nz. split; [exact Hnz|]. split; [exact Hk|].
  rewrite (iv_refs _ _ _ Hi _ _ Hnz). pose proof (cnt_pos s E p n j z Hp (iv_next _ _ _ Hi _ _ Hp) Hz HE). lia.
Qed.

Lemma del_h2_ok d fuel un x n s E X pend : unspec isBUH KH d un -> d <= fuel -> nr n = 0 -> nk n = KH -> good s E X pend -> hp s x = Some n -> X x = false -> cpl s E (S d) x ->
  exists s', del_h2 un fuel x s = Ok (put s' x None) /\ good (put s' x None) E X pend /\ evo isBUH s s'.
Proof.
  intros Hun Hd Hr Hk Hg Hx HXx Hc. pose proof Hg as (Hi & Hl & Ho). assert (HkU : nk n <> KU) by congruence.
  destruct Hc as (n0 & Hn0 & C1 & C2). rewrite Hx in Hn0. injection Hn0 as <-.
  destruct (iv_shape _ _ _ Hi _ _ Hx) as (_ & Hlen & _). specialize (Hlen Hk).
  assert (Hslot : forall i, i < 2 -> exists y, nth_error (nc n) i = Some (Some y) /\ E x i = false /\ cpl s E d y).
  { intros i Hi2. destruct (nth_error (nc n) i) as [p|] eqn:Ep; [|apply nth_error_None in Ep; lia]. destruct (C1 i p Ep) as (HE & y & -> & Hy). eauto. }
  destruct (Hslot 0 ltac:(lia)) as (r & Hr0 & HE0 & Hcr). destruct (Hslot 1 ltac:(lia)) as (c & Hc0 & HE1 & Hcc). clear Hslot.
  (* sons *)
  destruct (sonloop_ok isBUH KH d un x n X Hun Hr HkU (length (nc n) - 2) 2 s E pend Hg Hx ltac:(lia)) as (s1 & R1 & Hg1 & Hx1 & He1).
  { intros j p Hj Hp. destruct (C1 j p Hp) as (HE & Hy). split; [exact HE|]. split; [|exact Hy]. rewrite Hk. cbn. destruct j as [|[|j]]; [lia|lia|reflexivity]. }
  set (E1 := excls E x 2 (length (nc n) - 2)) in *.
  assert (HE1off : forall p j, p <> x -> E1 p j = E p j) by (intros p j Hp; unfold E1, excls; apply Nat.eqb_neq in Hp; rewrite Hp; cbn; apply orb_false_r).
  assert (HE1x : forall i, i < 2 -> E1 x i = E x i) by (intros i Hi2; unfold E1, excls; destruct (Nat.leb_spec 2 i); [lia|]; rewrite andb_false_r; cbn; apply orb_false_r).
  pose proof Hg1 as (Hi1 & Hl1 & Ho1).
  assert (Tr : forall i y, i < 2 -> nth_error (nc n) i = Some (Some y) -> E x i = false -> cpl s E d y -> cpl s1 E1 d y).
  { intros i y Hi2 Hy HE Hcy. eapply (cpl_evo isBUH s s1 E1 X pend d He1 Hi1 Ho1).
    - destruct (live_pos s E pend x n i y Hi Hx Hy HE) as (ny & Hny & Hky & Hry). eapply (cpl_off s E E1 X pend d x n HE1off Hi Ho Hx Hr y ny Hcy Hny); auto.
    - rewrite <- HE1x in HE by exact Hi2. destruct (live_pos s1 E1 pend x n i y Hi1 Hx1 Hy HE) as (ny & Hny & Hky & Hry). exists ny. auto. }
  pose proof (Tr 0 r ltac:(lia) Hr0 HE0 Hcr) as Hcr1. pose proof (Tr 1 c ltac:(lia) Hc0 HE1 Hcc) as Hcc1. clear Tr.
  (* coupling matrix *)
  set (X' := fun y => X y || (y =? x)).
  assert (HX'off : forall p, p <> x -> X' p = X p) by (intros p Hp; unfold X'; apply Nat.eqb_neq in Hp; rewrite Hp; apply orb_false_r).
  assert (Hg1' : good s1 E1 X' pend).
  { split; [exact Hi1|]. split; [exact Hl1|]. destruct Ho1 as (O1 & O2 & O3). split; [|split; [exact O2|]].
    - intros y m u Hy Hu HX. unfold X' in HX. apply orb_false_iff in HX as (HX & _). eapply O1; eauto.
    - intros y m Hy HX. destruct (Nat.eq_dec y x) as [->|Hne]; [rewrite Hx1 in Hy; injection Hy as <-; auto|]. rewrite HX'off in HX by exact Hne. eapply O3; eauto. }
  assert (S2 : exists s2, match nu n with Some u => del_uniform fuel u s1 | None => Ok s1 end = Ok s2 /\ good s2 E1 X' pend /\ evo isBU s1 s2).
  { destruct (nu n) as [u|] eqn:Eu; [|exists s1; split; [reflexivity|]; split; [exact Hg1'|apply evo_refl]].
    pose proof Ho1 as (O1 & O2 & O3). destruct (O1 x n u Hx1 Eu HXx) as (mu & Hmu & Hku).
    assert (Hcu : cpl s1 E1 d u).
    { eapply (cpl_evo isBUH s s1 E1 X pend d He1 Hi1 Ho1); [|exists mu; split; [exact Hmu|left; congruence]]. pose proof Ho as (Q1 & _). destruct (Q1 x n u Hx Eu HXx) as (mu0 & Hmu0 & Hku0).
      eapply (cpl_off s E E1 X pend d x n HE1off Hi Ho Hx Hr u mu0 (C2 u eq_refl) Hmu0); auto. }
    destruct d as [|d']; [contradiction|]. destruct Hcu as (mu' & Hmu' & D1 & _). rewrite Hmu in Hmu'. injection Hmu' as <-.
    destruct (iv_shape _ _ _ Hi1 _ _ Hmu) as (Hlu & _). specialize (Hlu Hku).
    assert (Hsl : forall sd, exists b, nth_error (nc mu) (side sd) = Some (Some b) /\ E1 u (side sd) = false /\ cpl s1 E1 d' b).
    { intros sd. destruct (nth_error (nc mu) (side sd)) as [p|] eqn:Ep; [|apply nth_error_None in Ep; destruct sd; cbn in Ep; lia]. destruct (D1 _ _ Ep) as (HE & b & -> & Hb). eauto. }
    destruct (del_uniform_ok fuel s1 E1 X' pend u mu Hg1' Hmu Hku) as (s2 & R2 & Hg2 & He2 & _).
    - intros sd. destruct (Hsl sd) as (b & _ & Q & _). exact Q.
    - intros sd. destruct (Hsl sd) as (b & Q1 & _ & Q2). exists (Some b). split; [exact Q1|]. apply (cpl_mono _ _ _ _ _ Q2). lia.
    - intros y m Hy Hm. rewrite (O2 y m x n u Hy Hm Hx1 Eu). unfold X'. rewrite Nat.eqb_refl. apply orb_true_r.
    - exists s2. auto. }
  destruct S2 as (s2 & R2 & Hg2 & He2). assert (Hx2 : hp s2 x = Some n) by (apply (ev_zero _ _ _ He2); assumption). pose proof Hg2 as (Hi2 & Hl2 & Ho2).
  assert (Tr : forall i y, i < 2 -> nth_error (nc n) i = Some (Some y) -> E x i = false -> cpl s1 E1 d y -> cpl s2 E1 fuel y).
  { intros i y Hi' Hy HE Hcy. apply (cpl_mono s2 E1 d y fuel); [|exact Hd]. eapply (cpl_evo isBU s1 s2 E1 X' pend d He2 Hi2 Ho2 y Hcy).
    rewrite <- HE1x in HE by exact Hi'. destruct (live_pos s2 E1 pend x n i y Hi2 Hx2 Hy HE) as (ny & Hny & Hky & Hry). exists ny. auto. }
  pose proof (Tr 0 r ltac:(lia) Hr0 HE0 Hcr1) as Hcr2. pose proof (Tr 1 c ltac:(lia) Hc0 HE1 Hcc1) as Hcc2. clear Tr.
  (* cluster bases *)
  destruct (unref_slot_ok fuel s2 E1 X' pend x n 1 c Hg2 Hx2 Hr Hk ltac:(lia) Hc0 ltac:(rewrite HE1x by lia; exact HE1) Hcc2) as (s3 & R3 & Hg3 & He3 & Hx3).
  pose proof Hg3 as (Hi3 & Hl3 & Ho3).
  assert (HE30 : excl E1 x 1 x 0 = false) by (rewrite excl_other by congruence; rewrite HE1x by lia; exact HE0).
  assert (Hcr3 : cpl s3 (excl E1 x 1) fuel r).
  { destruct (live_pos s2 E1 pend x n 0 r Hi2 Hx2 Hr0 ltac:(rewrite HE1x by lia; exact HE0)) as (ny & Hny & Hky & Hry).
    eapply (cpl_evo (only KB) s2 s3 (excl E1 x 1) X' pend fuel He3 Hi3 Ho3).
    - eapply (cpl_excl s2 E1 X' pend fuel x n 1 Hi2 Ho2 Hx2 Hr r ny Hcr2 Hny); auto.
    - destruct (live_pos s3 (excl E1 x 1) pend x n 0 r Hi3 Hx3 Hr0 HE30) as (ny3 & Hny3 & Hky3 & Hry3). exists ny3. auto. }
  destruct (unref_slot_ok fuel s3 (excl E1 x 1) X' pend x n 0 r Hg3 Hx3 Hr Hk ltac:(lia) Hr0 HE30 Hcr3) as (s4 & R4 & Hg4 & He4 & Hx4).
  exists s4. split.
  { unfold del_h2. unfold getn at 1. rewrite Hx. cbn [rbind]. rewrite Hr. cbn [Nat.eqb rassert rbind]. rewrite R1. cbn [rbind]. unfold getn at 1. rewrite Hx1. cbn [rbind]. rewrite R2. cbn [rbind]. rewrite R3. cbn [rbind]. rewrite R4. reflexivity. }
  split.
  - eapply good_free; [exact Hg4|exact Hx4|exact Hr|exact HkU| | |exact HX'off].
    + intros i Hi'. unfold excl, E1, excls. rewrite Nat.eqb_refl. destruct i as [|[|i]]; cbn -[Nat.ltb Nat.leb].
      * apply orb_true_r.
      * rewrite !orb_true_r. reflexivity.
      * replace (2 <=? S (S i)) with true by reflexivity. replace (S (S i) <? S (S (length (nc n) - 2))) with true by (symmetry; apply Nat.ltb_lt; lia). cbn. rewrite !orb_true_r. reflexivity.
    + intros p i Hp. rewrite !excl_other_node by exact Hp. apply HE1off, Hp.
  - eapply evo_trans; [exact He1|]. eapply evo_trans; [exact (evo_sub _ _ _ _ isBU_BUH He2)|]. eapply evo_trans; [exact (evo_sub _ _ _ _ isB_BUH He3)|exact (evo_sub _ _ _ _ isB_BUH He4)].
Qed.

Lemma unref_h2_ok fuel : forall d, d <= fuel -> unspec isBUH KH d (unref_h2 d fuel).
Proof.
  induction d as [|d IH]; intros Hd x s E X pend Hg Hp (n & Hx & Hk) Hc; [contradiction|].
  cbn [unref_h2]. unfold getn at 1. rewrite Hx. cbn [rbind].
  apply (unref_step isBUH KH d (del_h2 (unref_h2 d fuel) fuel)); try assumption; [reflexivity|discriminate|].
  intros s1 n1 pend1 Hg1 Hx1 Hr1 Hk1 HX Hc1. apply (del_h2_ok d fuel (unref_h2 d fuel) x n1); auto; try lia. apply IH. lia.
Qed.
