(** * Reference counting: trees *)
From Coq Require Import Arith Lia List Bool.
From Verif Require Import Prog HmSpec HmP RefHeap RefSpec RefP.
Import ListNotations.

Lemma linv_E s E E' : linv s E -> (forall u sd, live s u KU -> E' u (side sd) = E u (side sd)) -> linv s E'.
Proof.
  intros H HE b n sd Hb Hk. destruct (H b n sd Hb Hk) as (l & A1 & A2 & A3). exists l. split; [exact A1|]. split; [|exact A3].
  intros u. rewrite A2. split; intros (Q1 & Q2 & Q3); (split; [exact Q1|split; [exact Q2|]]); rewrite <- Q3; [|symmetry]; apply HE; exact Q1.
Qed.
Lemma eqb01 x y : (if ptr_eqb (Some y) (Some x) then 1 else 0) = (if x =? y then 1 else 0).
Proof. cbn. rewrite Nat.eqb_sym. reflexivity. Qed.

Lemma inv_excl s E pend p n i y : inv s E pend -> hp s p = Some n -> nth_error (nc n) i = Some (Some y) -> E p i = false ->
  inv s (excl E p i) (inc pend y).
Proof.
  intros Hi Hp Hy HE. pose proof (iv_next _ _ _ Hi _ _ Hp) as Hpn. constructor.
  - apply Hi.
  - apply Hi.
  - intros x m Hx. rewrite (iv_refs _ _ _ Hi _ _ Hx), (cnt_excl s E p n i (Some y) x Hp Hpn Hy HE), eqb01. unfold inc. lia.
  - intros q m j t Hq Ht HE'. destruct (excl_false _ _ _ _ _ HE') as (HE2 & _). exact (iv_points _ _ _ Hi _ _ _ _ Hq Ht HE2).
  - intros t Ht. unfold inc in Ht. destruct (Nat.eqb_spec t y) as [Et|Et]; [subst t|].
    + destruct (iv_points _ _ _ Hi _ _ _ _ Hp Hy HE) as (m & Hm & _). eauto.
    + apply (iv_pend _ _ _ Hi). lia.
Qed.
Lemma good_excl s E X pend p n i y : good s E X pend -> hp s p = Some n -> nk n <> KU -> nth_error (nc n) i = Some (Some y) -> E p i = false ->
  good s (excl E p i) X (inc pend y).
Proof.
  intros (Hi & Hl & Ho) Hp Hk Hy HE. split; [eapply inv_excl; eauto|]. split; [|exact Ho].
  eapply linv_E; [exact Hl|]. intros u sd (m & Hm & Hu). apply excl_other_node. intros ->. congruence.
Qed.

Lemma chain_ext nx1 pv1 nx2 pv2 l : (forall u, In u l -> nx2 u = nx1 u /\ pv2 u = pv1 u) -> forall b f, chain nx1 pv1 b f l -> chain nx2 pv2 b f l.
Proof.
  induction l as [|u l IH]; intros H b f Hc; [exact Hc|]. destruct Hc as (C1 & C2 & C3). destruct (H u (or_introl eq_refl)) as (E1 & E2).
  split; [exact C1|]. split; [congruence|]. rewrite E1. apply IH; [intros v Hv; apply H; right; exact Hv|exact C3].
Qed.

(** Changes that concern neither pointers nor lists *)
Lemma linv_put s E x n v : linv s E -> hp s x = Some n -> nk n <> KU ->
  (forall m, v = Some m -> nk m = nk n /\ nl m = nl n) -> linv (put s x v) E.
Proof.
  intros Hl Hx HkU Hv b nb sd Hb Hk.
  assert (Hb' : exists nb', hp s b = Some nb' /\ nk nb' = KB /\ nl nb' = nl nb).
  { destruct (Nat.eq_dec b x) as [->|Hne].
    - rewrite put_same in Hb. destruct (Hv nb Hb) as (E1 & E2). exists n. repeat split; congruence.
    - rewrite put_other in Hb by exact Hne. eauto. }
  destruct Hb' as (nb' & Hb1 & Hb2 & Hb3). destruct (Hl b nb' sd Hb1 Hb2) as (l & A1 & A2 & A3). exists l. split; [exact A1|].
  assert (Hu : forall u, live s u KU <-> live (put s x v) u KU).
  { intros u. unfold live. destruct (Nat.eq_dec u x) as [->|Hne].
    - rewrite put_same, Hx. split; intros (m & Hm & Hkm); [injection Hm as <-; contradiction|]. destruct (Hv m Hm). congruence.
    - rewrite put_other by exact Hne. tauto. }
  assert (Hne : forall u, live s u KU -> u <> x) by (intros u (m & Hm & Hkm) ->; congruence).
  split.
  - intros u. rewrite A2. split; intros (Q1 & Q2 & Q3).
    + split; [apply Hu, Q1|]. split; [|exact Q3]. destruct Q2 as (m & Hm & Q). exists m. rewrite put_other by (apply Hne, Q1). auto.
    + apply Hu in Q1. split; [exact Q1|]. split; [|exact Q3]. destruct Q2 as (m & Hm & Q). exists m. rewrite put_other in Hm by (apply Hne, Q1). auto.
  - rewrite <- Hb3. eapply chain_ext; [|exact A3]. intros u Hin. apply A2 in Hin as (Q & _). unfold next_of, prev_of. rewrite put_other by (apply Hne, Q). auto.
Qed.
Lemma own_put s X x n v : own s X -> hp s x = Some n -> nk n <> KU -> (forall m, v = Some m -> nk m = nk n /\ nu m = nu n) -> (X x = true -> forall m, v = Some m -> nr m = 0) ->
  own (put s x v) X.
Proof.
  intros (O1 & O2 & O3) Hx Hk Hv Hr.
  assert (Back : forall y m, hp (put s x v) y = Some m -> exists m', hp s y = Some m' /\ nk m' = nk m /\ nu m' = nu m).
  { intros y m Hy. destruct (Nat.eq_dec y x) as [->|Hne]; [rewrite put_same in Hy; destruct (Hv m Hy); exists n; auto|]. rewrite put_other in Hy by exact Hne. eauto. }
  split; [|split].
  - intros y m u Hy Hu HX. destruct (Back y m Hy) as (m' & B1 & B2 & B3). destruct (O1 y m' u B1 ltac:(congruence) HX) as (mu & Hmu & Hku).
    exists mu. split; [|exact Hku]. rewrite put_other; [exact Hmu|]. intros ->. congruence.
  - intros y m z m2 u Hy Hu Hz Hu2. destruct (Back y m Hy) as (m' & B1 & B2 & B3). destruct (Back z m2 Hz) as (m3 & C1 & C2 & C3). rewrite <- B3 in Hu. rewrite <- C3 in Hu2. exact (O2 _ _ _ _ _ B1 Hu C1 Hu2).
  - intros y m Hy HX. destruct (Nat.eq_dec y x) as [->|Hne].
    + rewrite put_same in Hy. destruct (Hv m Hy) as (E1 & _). destruct (O3 x n Hx HX) as (Q1 & _). split; [congruence|]. apply Hr; assumption.
    + rewrite put_other in Hy by exact Hne. eapply O3; eauto.
Qed.

(** A counter changes together with the additional references. *)
Lemma inv_with_r s E pend pend' x n r : inv s E pend -> hp s x = Some n -> nk n <> KU ->
  r + pend x = nr n + pend' x -> (forall y, y <> x -> pend' y = pend y) -> inv (put s x (Some (with_r n r))) E pend'.
Proof.
  intros Hi Hx HkU Hr Hp.
  assert (Hc : forall y, cnt (put s x (Some (with_r n r))) E y = cnt s E y).
  { intros y. apply cnt_ext; [reflexivity|]. intros p _. destruct (Nat.eq_dec p x) as [->|Hne]; [rewrite put_same, Hx; cbn; auto|]. rewrite put_other by exact Hne. destruct (hp s p); auto. }
  constructor.
  - intros y m Hy. destruct (Nat.eq_dec y x) as [->|Hne]; [exact (iv_next _ _ _ Hi _ _ Hx)|]. rewrite put_other in Hy by exact Hne. exact (iv_next _ _ _ Hi _ _ Hy).
  - intros y m Hy. destruct (Nat.eq_dec y x) as [->|Hne]; [rewrite put_same in Hy; injection Hy as <-; destruct (iv_shape _ _ _ Hi _ _ Hx) as (Q1 & Q2 & Q3 & Q4 & _); repeat split; auto; intros Q; contradiction|]. rewrite put_other in Hy by exact Hne. eapply iv_shape; eauto.
  - intros y m Hy. rewrite Hc. destruct (Nat.eq_dec y x) as [->|Hne].
    + rewrite put_same in Hy. injection Hy as <-. cbn. pose proof (iv_refs _ _ _ Hi _ _ Hx). lia.
    + rewrite put_other in Hy by exact Hne. rewrite (iv_refs _ _ _ Hi _ _ Hy), Hp by exact Hne. reflexivity.
  - intros q m j t Hq Ht HE. assert (Hq' : exists m', hp s q = Some m' /\ nc m' = nc m /\ nk m' = nk m).
    { destruct (Nat.eq_dec q x) as [->|Hne]; [rewrite put_same in Hq; injection Hq as <-; exists n; auto|]. rewrite put_other in Hq by exact Hne. eauto. }
    destruct Hq' as (m' & Q1 & Q2 & Q3). rewrite <- Q2 in Ht. rewrite <- Q3. destruct (iv_points _ _ _ Hi _ _ _ _ Q1 Ht HE) as (mt & Hmt & Hkt).
    destruct (Nat.eq_dec t x) as [->|Hne]; [exists (with_r n r); rewrite put_same; split; [reflexivity|cbn; congruence]|]. exists mt. rewrite put_other by exact Hne. auto.
  - intros t Ht. destruct (Nat.eq_dec t x) as [->|Hne]; [rewrite put_same; eauto|]. rewrite put_other by exact Hne. apply (iv_pend _ _ _ Hi). rewrite <- Hp by exact Hne. exact Ht.
Qed.

(** A structure without references is released. *)
Lemma good_free s E E' X X' pend x n : good s E' X' pend -> hp s x = Some n -> nr n = 0 -> nk n <> KU ->
  (forall i, i < length (nc n) -> E' x i = true) -> (forall p i, p <> x -> E' p i = E p i) -> (forall p, p <> x -> X' p = X p) ->
  good (put s x None) E X pend.
Proof.
  intros (Hi & Hl & Ho) Hx Hr Hk HE1 HE2 HX.
  pose proof (iv_refs _ _ _ Hi _ _ Hx) as Hrx.
  assert (Hc : forall y, cnt (put s x None) E y = cnt s E' y).
  { intros y. apply cnt_ext; [reflexivity|]. intros p _. destruct (Nat.eq_dec p x) as [->|Hne].
    - rewrite put_same, Hx. unfold ncnt. apply nsum_zero. intros i Hi'. rewrite HE1 by exact Hi'. reflexivity.
    - rewrite put_other by exact Hne. destruct (hp s p); [|exact I]. split; [reflexivity|]. intros i _. apply HE2, Hne. }
  split; [constructor|split].
  - intros y m Hy. destruct (Nat.eq_dec y x) as [->|Hne]; [rewrite put_same in Hy; discriminate|]. rewrite put_other in Hy by exact Hne. exact (iv_next _ _ _ Hi _ _ Hy).
  - intros y m Hy. destruct (Nat.eq_dec y x) as [->|Hne]; [rewrite put_same in Hy; discriminate|]. rewrite put_other in Hy by exact Hne. eapply iv_shape; eauto.
  - intros y m Hy. destruct (Nat.eq_dec y x) as [->|Hne]; [rewrite put_same in Hy; discriminate|]. rewrite put_other in Hy by exact Hne. rewrite Hc. eapply iv_refs; eauto.
  - intros q m j t Hq Ht HE. destruct (Nat.eq_dec q x) as [->|Hne]; [rewrite put_same in Hq; discriminate|]. rewrite put_other in Hq by exact Hne.
    rewrite <- HE2 in HE by exact Hne. destruct (iv_points _ _ _ Hi _ _ _ _ Hq Ht HE) as (mt & Hmt & Hkt). exists mt. split; [|exact Hkt].
    rewrite put_other; [exact Hmt|]. intros ->. exact (cnt0_points s E' pend x n q m j Hi Hx Hr Hq HE Ht).
  - intros t Ht. destruct (Nat.eq_dec t x) as [->|Hne]; [lia|]. rewrite put_other by exact Hne. apply (iv_pend _ _ _ Hi), Ht.
  - eapply linv_E; [eapply linv_put; [exact Hl|exact Hx|exact Hk|discriminate]|]. intros u sd (m & Hm & _). symmetry. apply HE2. intros ->. rewrite put_same in Hm. discriminate.
  - destruct (own_put s X' x n None Ho Hx Hk) as (P1 & P2 & P3); [discriminate|discriminate|]. split; [|split; [exact P2|]].
    + intros y m u Hy Hu HXy. eapply P1; eauto. rewrite HX; [exact HXy|]. intros ->. rewrite put_same in Hy. discriminate.
    + intros y m Hy HXy. eapply P3; eauto. rewrite HX; [exact HXy|]. intros ->. rewrite put_same in Hy. discriminate.
Qed.

(** ** Loops over the sons *)
Definition unspec (A : kind -> bool) (k : kind) (d : nat) (un : nat -> heap -> res heap) : Prop := forall y s E X pend,
  good s E X pend -> 0 < pend y -> live s y k -> cpl s E d y -> exists s', un y s = Ok s' /\ good s' E X (dec pend y) /\ evo A s s'.

Definition excls (E : nat -> nat -> bool) (x i m p j : nat) : bool := E p j || ((p =? x) && (i <=? j) && (j <? i + m)).
Lemma good_E s E E' X pend : good s E X pend -> (forall p i, E' p i = E p i) -> good s E' X pend.
Proof.
  intros (Hi & Hl & Ho) H. split; [|split; [eapply linv_E; [exact Hl|]; intros; apply H|exact Ho]]. destruct Hi as [A1 A2 A3 A4 A5].
  constructor; auto.
  - intros x n Hx. rewrite (A3 x n Hx). f_equal. symmetry. apply cnt_ext; [reflexivity|]. intros p _. destruct (hp s p); [|exact I]. split; [reflexivity|]. intros i _. symmetry. apply H.
  - intros p n i t Hp Ht HE. apply (A4 p n i t Hp Ht). rewrite <- H. exact HE.
Qed.

Lemma sonloop_ok A k d un x n X : unspec A k d un -> nr n = 0 -> nk n <> KU -> forall m i s E pend,
  good s E X pend -> hp s x = Some n -> i + m = length (nc n) ->
  (forall j p, i <= j -> nth_error (nc n) j = Some p -> E x j = false /\ target (nk n) j = k /\ exists y, p = Some y /\ cpl s E d y) ->
  exists s', sonloop un x m i s = Ok s' /\ good s' (excls E x i m) X pend /\ hp s' x = Some n /\ evo A s s'.
Proof.
  intros Hun Hr Hk m. induction m as [|m IH]; intros i s E pend Hg Hx Hlen Hs.
  - exists s. split; [reflexivity|]. split; [|split; [exact Hx|apply evo_refl]]. eapply good_E; [exact Hg|]. intros p j. unfold excls.
    destruct (i <=? j) eqn:E1; [|rewrite andb_false_r; apply orb_false_r]. apply Nat.leb_le in E1. replace (j <? i + 0) with false by (symmetry; apply Nat.ltb_ge; lia).
    rewrite andb_false_r. apply orb_false_r.
  - cbn [sonloop]. unfold getn. rewrite Hx. cbn [rbind]. unfold slot.
    destruct (nth_error (nc n) i) as [p|] eqn:Ep; [|apply nth_error_None in Ep; lia]. cbn [rbind].
    destruct (Hs i p (le_n i) Ep) as (HE & Hkt & y & -> & Hcy).
    pose proof (good_excl s E X pend x n i y Hg Hx Hk Ep HE) as Hg1.
    pose proof Hg as (Hi & _ & Ho).
    pose proof (iv_points _ _ _ Hi _ _ _ _ Hx Ep HE) as Hly. rewrite Hkt in Hly.
    assert (Hexc : forall j z, i <= j -> nth_error (nc n) j = Some (Some z) -> cpl s (excl E x i) d z).
    { intros j z Hj Hz. destruct (Hs j (Some z) Hj Hz) as (HEj & Hktj & z' & E' & Hcz). injection E' as <-.
      destruct (iv_points _ _ _ Hi _ _ _ _ Hx Hz HEj) as (nz & Hnz & _). eapply (cpl_excl s E X pend d x n i Hi Ho Hx Hr z nz); auto.
      left. rewrite (iv_refs _ _ _ Hi _ _ Hnz). pose proof (cnt_pos s E x n j z Hx (iv_next _ _ _ Hi _ _ Hx) Hz HEj). lia. }
    destruct (Hun y s (excl E x i) X (inc pend y) Hg1) as (s1 & R1 & Hg2 & He1).
    + unfold inc. rewrite Nat.eqb_refl. lia.
    + exact Hly.
    + exact (Hexc i y (le_n i) Ep).
    + rewrite R1. cbn [rbind].
      assert (Hx1 : hp s1 x = Some n) by (eapply ev_zero; eauto).
      assert (Hg2' : good s1 (excl E x i) X pend).
      { eapply good_pend; [exact Hg2|]. intros z. unfold dec, inc. destruct (z =? y); lia. }
      destruct (IH (S i) s1 (excl E x i) pend Hg2' Hx1 ltac:(lia)) as (s2 & R2 & Hg3 & Hx2 & He2).
      * intros j p Hj Hp. destruct (Hs j p ltac:(lia) Hp) as (HEj & Hktj & z & -> & _).
        assert (HEj' : excl E x i x j = false) by (rewrite excl_other by congruence || (intros Q; injection Q as Q; lia); exact HEj).
        split; [exact HEj'|]. split; [exact Hktj|]. exists z. split; [reflexivity|].
        destruct Hg2' as (Hi2 & _ & Ho2). eapply cpl_evo; [exact He1|exact Hi2|exact Ho2|exact (Hexc j z ltac:(lia) Hp)|].
        destruct (iv_points _ _ _ Hi2 _ _ _ _ Hx1 Hp HEj') as (nz & Hnz & _). exists nz. split; [exact Hnz|]. right.
        rewrite (iv_refs _ _ _ Hi2 _ _ Hnz). pose proof (cnt_pos s1 _ x n j z Hx1 (iv_next _ _ _ Hi2 _ _ Hx1) Hp HEj'). lia.
      * exists s2. split; [exact R2|]. split; [|split; [exact Hx2|eapply evo_trans; eauto]].
        eapply good_E; [exact Hg3|]. intros p j. unfold excls, excl. destruct (p =? x); cbn [andb]; [|rewrite !orb_false_r; reflexivity].
        rewrite <- orb_assoc. f_equal. destruct (Nat.eqb_spec j i), (Nat.leb_spec (S i) j), (Nat.leb_spec i j), (Nat.ltb_spec j (i + S m)), (Nat.ltb_spec j (S i + m)); cbn; try reflexivity; lia.
Qed.

Lemma del_tree_ok A k d un x n s E X pend : unspec A k d un -> istree k -> nr n = 0 -> nk n = k -> good s E X pend -> hp s x = Some n -> cpl s E (S d) x ->
  exists s', del_tree un x s = Ok (put s' x None) /\ good (put s' x None) E X pend /\ hp s' x = Some n /\ evo A s s'.
Proof.
  intros Hun Hkk Hr Hk Hg Hx Hc. pose proof Hg as (Hi & Hl & Ho).
  assert (HkU : nk n <> KU) by (destruct Hkk as [Q|[Q|Q]]; congruence).
  destruct Hc as (n0 & Hn0 & C1 & _). rewrite Hx in Hn0. injection Hn0 as <-.
  assert (Hnl : forall sd, nl n sd = None).
  { destruct (iv_shape _ _ _ Hi _ _ Hx) as (_ & _ & Q & _ & _). intros sd. destruct (nk n) eqn:Ek; try (apply Q; discriminate).
    destruct (Hl x n sd Hx Ek) as (l & _ & A2 & A3). destruct l as [|u l]; [exact A3|]. exfalso.
    destruct (proj1 (A2 u) (or_introl eq_refl)) as (_ & (m & Hm & Hp) & HE). exact (cnt0_points s E pend x n u m (side sd) Hi Hx Hr Hm HE Hp). }
  unfold del_tree, getn. rewrite Hx. cbn [rbind]. rewrite Hr, !Hnl. cbn [Nat.eqb rassert isnull rbind].
  destruct (sonloop_ok A k d un x n X Hun Hr HkU (length (nc n)) 0 s E pend Hg Hx eq_refl) as (s' & R & Hg' & Hx' & He).
  { intros j p _ Hp. destruct (C1 j p Hp) as (HE & Hy). split; [exact HE|]. split; [|exact Hy]. rewrite Hk. destruct Hkk as [->|[->| ->]]; reflexivity. }
  rewrite R. cbn [rbind]. exists s'. split; [reflexivity|]. split; [|split; assumption].
  eapply good_free; [exact Hg'|exact Hx'|exact Hr|exact HkU| | |reflexivity].
  - intros i Hi'. unfold excls. rewrite Nat.eqb_refl. cbn. apply Nat.ltb_lt in Hi'. rewrite Hi'. apply orb_true_r.
  - intros p i Hp. unfold excls. apply Nat.eqb_neq in Hp. rewrite Hp. cbn. apply orb_false_r.
Qed.

Lemma cpl_same s s' E : (forall l n, hp s l = Some n -> exists n', hp s' l = Some n' /\ nc n' = nc n /\ nu n' = nu n) -> forall d x, cpl s E d x -> cpl s' E d x.
Proof.
  intros H d. induction d as [|d IH]; intros x Hc; [exact Hc|]. destruct Hc as (n & Hn & C1 & C2). destruct (H x n Hn) as (n' & Hn' & E1 & E2).
  exists n'. split; [exact Hn'|]. rewrite E1, E2. split.
  - intros i p Hp. destruct (C1 i p Hp) as (HE & y & -> & Hy). split; [exact HE|]. exists y. auto.
  - intros u Hu. apply IH, C2, Hu.
Qed.

Definition only (k : kind) (k' : kind) : bool :=
  match k, k' with KB, KB | KM, KM | KO, KO | KH, KH | KU, KU | KVB, KVB | KVM, KVM | KVO, KVO | KVH, KVH => true | _, _ => false end.
Lemma only_true k k' : only k k' = true <-> k' = k.
Proof. destruct k, k'; cbn; split; congruence. Qed.

(** Releasing a reference *)
Lemma unref_step (A : kind -> bool) (k : kind) (d : nat) (del : nat -> heap -> res heap) x n s E X pend : A k = true -> k <> KU -> good s E X pend -> 0 < pend x -> hp s x = Some n -> nk n = k -> cpl s E (S d) x ->
  (forall s1 n1 pend1, good s1 E X pend1 -> hp s1 x = Some n1 -> nr n1 = 0 -> nk n1 = k -> X x = false -> cpl s1 E (S d) x ->
     exists s', del x s1 = Ok (put s' x None) /\ good (put s' x None) E X pend1 /\ evo A s1 s') ->
  exists s', (rassert (0 <? nr n) ;- s <~ Ok (put s x (Some (with_r n (nr n - 1)))) ; n <~ getn s x ; if nr n =? 0 then del x s else Ok s) = Ok s' /\
    good s' E X (dec pend x) /\ evo A s s'.
Proof.
  intros HAk HkU' Hg Hp Hx Hk Hc Hdel. pose proof Hg as (Hi & Hl & Ho). pose proof (iv_refs _ _ _ Hi _ _ Hx) as Hr.
  assert (HkU : nk n <> KU) by congruence.
  destruct (Nat.ltb_spec 0 (nr n)); [|lia]. cbn [rassert rbind]. unfold getn.
  rewrite put_same. cbn [rbind nr with_r].
  set (s1 := put s x (Some (with_r n (nr n - 1)))).
  assert (HX : X x = false).
  { destruct (X x) eqn:EX; [|reflexivity]. destruct Ho as (_ & _ & O3). destruct (O3 x n Hx EX). lia. }
  assert (Hg1 : good s1 E X (dec pend x)).
  { split; [|split].
    - apply (inv_with_r s E pend); [exact Hi|exact Hx|exact HkU| |].
      + unfold dec. rewrite Nat.eqb_refl. lia.
      + intros y Hy. unfold dec. apply Nat.eqb_neq in Hy. rewrite Hy. lia.
    - eapply linv_put; [exact Hl|exact Hx|exact HkU|]. intros m Em. injection Em as <-. auto.
    - eapply own_put; [exact Ho|exact Hx|exact HkU| |]; [intros m Em; injection Em as <-; auto|congruence]. }
  assert (Hx1 : hp s1 x = Some (with_r n (nr n - 1))) by apply put_same.
  destruct (Nat.eqb_spec (nr n - 1) 0) as [H0|H0].
  - assert (Hc1 : cpl s1 E (S d) x).
    { eapply cpl_same; [|exact Hc]. intros l m Hl0. destruct (Nat.eq_dec l x) as [->|Hne].
      - rewrite Hx in Hl0. injection Hl0 as <-. exists (with_r n (nr n - 1)). auto.
      - exists m. unfold s1. rewrite put_other by exact Hne. auto. }
    destruct (Hdel s1 (with_r n (nr n - 1)) (dec pend x) Hg1 Hx1 H0 Hk HX Hc1) as (s' & R & Hg' & He).
    exists (put s' x None). split; [exact R|]. split; [exact Hg'|]. constructor.
    + exact (ev_nx _ _ _ He).
    + intros l Hln. destruct (Nat.eq_dec l x) as [->|Hne]; [apply put_same|]. rewrite put_other by exact Hne. apply (ev_none _ _ _ He). unfold s1. rewrite put_other by exact Hne. exact Hln.
    + intros l m Hlm HA. destruct (Nat.eq_dec l x) as [->|Hne].
      * rewrite Hx in Hlm. injection Hlm as <-. congruence.
      * rewrite put_other by exact Hne. apply (ev_kind _ _ _ He); [|exact HA]. unfold s1. rewrite put_other by exact Hne. exact Hlm.
    + intros l m Hlm HA HU. destruct (Nat.eq_dec l x) as [->|Hne].
      * rewrite Hx in Hlm. injection Hlm as <-. lia.
      * rewrite put_other by exact Hne. apply (ev_zero _ _ _ He); [|exact HA|exact HU]. unfold s1. rewrite put_other by exact Hne. exact Hlm.
    + intros l m m' Hlm Hlm'. destruct (Nat.eq_dec l x) as [->|Hne].
      * rewrite put_same in Hlm'. discriminate.
      * rewrite put_other in Hlm' by exact Hne. eapply (ev_same _ _ _ He); [|exact Hlm']. unfold s1. rewrite put_other by exact Hne. exact Hlm.
  - exists s1. split; [reflexivity|]. split; [exact Hg1|]. constructor.
    + reflexivity.
    + intros l Hln. unfold s1. rewrite put_other; [exact Hln|]. intros ->. congruence.
    + intros l m Hlm HA. unfold s1. rewrite put_other; [exact Hlm|]. intros ->. rewrite Hx in Hlm. injection Hlm as <-. congruence.
    + intros l m Hlm HA _. unfold s1. rewrite put_other; [exact Hlm|]. intros ->. rewrite Hx in Hlm. injection Hlm as <-. lia.
    + intros l m m' Hlm Hlm'. unfold s1 in Hlm'. destruct (Nat.eq_dec l x) as [->|Hne].
      * rewrite put_same in Hlm'. injection Hlm' as <-. rewrite Hx in Hlm. injection Hlm as <-. cbn. repeat split; auto. intros; lia.
      * rewrite put_other in Hlm' by exact Hne. rewrite Hlm in Hlm'. injection Hlm' as <-. auto.
Qed.

Lemma unref_tree_ok k : istree k -> forall fuel, unspec (only k) k fuel (unref_tree fuel).
Proof.
  intros Hkk fuel. induction fuel as [|fuel IH]; intros x s E X pend Hg Hp (n & Hx & Hk) Hc; [contradiction|].
  cbn [unref_tree]. unfold getn at 1. rewrite Hx. cbn [rbind].
  apply (unref_step (only k) k fuel (del_tree (unref_tree fuel))); try assumption.
  - apply only_true. reflexivity.
  - destruct Hkk as [Q|[Q|Q]]; congruence.
  - intros s1 n1 pend1 Hg1 Hx1 Hr1 Hk1 _ Hc1. destruct (del_tree_ok (only k) k fuel (unref_tree fuel) x n1 s1 E X pend1 IH Hkk Hr1 Hk1 Hg1 Hx1 Hc1) as (s' & R & Q1 & Q2 & Q3). eauto.
Qed.
