(** * Race-free threads have only one result *)
From Coq Require Import Arith Lia List Bool.
From Verif Require Import Fld Prog Par.
Import ListNotations.

Scheme race_free_ind2 := Minimality for race_free Sort Prop
  with race_frees_ind2 := Minimality for race_frees Sort Prop.
Combined Scheme race_free_mut from race_free_ind2, race_frees_ind2.

Lemma access_eq_dec (x y : access) : {x = y} + {x <> y}.
Proof. repeat decide equality. Qed.

Lemma touches_app a l1 l2 : touches a (l1 ++ l2) <-> touches a l1 \/ touches a l2.
Proof. unfold touches. rewrite !in_app_iff. tauto. Qed.

Lemma fop_app {A} (P : A -> A -> Prop) l1 l2 : ForallOrdPairs P (l1 ++ l2) <->
  ForallOrdPairs P l1 /\ ForallOrdPairs P l2 /\ forall x y, In x l1 -> In y l2 -> P x y.
Proof.
  induction l1 as [|z l1 IH]; cbn.
  - split; [intros H; split; [constructor|split; [exact H|intros ? ? []]]|tauto].
  - split.
    + intros H. inversion H as [|? ? F G]; subst. apply IH in G as (A1 & A2 & A3).
      rewrite Forall_app in F. destruct F as [F1 F2]. rewrite Forall_forall in F2. split; [constructor; assumption|].
      split; [exact A2|]. intros x y [<-|Hx] Hy; auto.
    + intros (A1 & A2 & A3). inversion A1 as [|? ? F G]; subst. constructor.
      * apply Forall_app. split; [exact F|]. apply Forall_forall. auto.
      * apply IH. split; [exact G|]. split; [exact A2|]. auto.
Qed.

Section Threads.
Context {K : Type}.
Implicit Types (m n : mem K) (t : thr K).

Lemma meq_refl m : meq m m. Proof. split; reflexivity. Qed.
Lemma meq_sym m1 m2 : meq m1 m2 -> meq m2 m1.
Proof. intros [A B]. split; [auto|]. intros a. auto. Qed.
Lemma meq_trans m1 m2 m3 : meq m1 m2 -> meq m2 m3 -> meq m1 m3.
Proof. intros [A B] [C D]. split; [congruence|]. intros a. rewrite B. apply D. Qed.

(** The same accesses from a memory that agrees on the cells used. *)
Definition agree (l : list access) m n : Prop := next m = next n /\ forall a, touches a l -> get m a = get n a.
Definition result (l : list access) m' n n' : Prop :=
  next n' = next n /\ (forall a, In (Wr a) l -> get n' a = get m' a) /\ (forall a, ~ In (Wr a) l -> get n' a = get n a).

Lemma pt_agree m p l m' : ptrace m p l m' -> forall n, agree l m n -> exists n', ptrace n p l n' /\ result l m' n n'.
Proof.
  induction 1 as [m|m a v k l m' Hv P IH|m a v k l m' Hf P IH]; intros n [N A].
  - exists n. split; [constructor|]. split; [reflexivity|]. split; [intros a []|reflexivity].
  - destruct (IH n) as (n' & P' & R1 & R2 & R3).
    { split; [exact N|]. intros b [H|H]; apply A; [left|right]; right; exact H. }
    exists n'. split; [econstructor; [rewrite <- A by (left; left; reflexivity); exact Hv|exact P']|].
    split; [exact R1|]. split.
    + intros b [H|H]; [discriminate|apply R2; exact H].
    + intros b H. apply R3. intros C. apply H. right. exact C.
  - assert (Ha : get m a = get n a) by (apply A; right; left; reflexivity).
    assert (Hf' : get n a <> Free) by (rewrite <- Ha; exact Hf).
    destruct (IH (upd n a v)) as (n' & P' & R1 & R2 & R3).
    { split; [exact N|]. intros b H. rewrite !get_upd by assumption. destruct (addr_eqb_spec b a); [reflexivity|].
      destruct H as [H|H]; apply A; [left|right]; right; exact H. }
    exists n'. split; [constructor; assumption|]. split; [exact R1|]. split.
    + intros b H. destruct (in_dec access_eq_dec (Wr b) l) as [I|I]; [apply R2; exact I|].
      destruct H as [H|H]; [|contradiction]. injection H as <-. rewrite (R3 a I), get_upd by exact Hf'.
      destruct (addr_eqb_spec a a); [|contradiction].
      assert (Hk : get m' a = get (upd m a v) a).
      { clear - P I. induction P as [|? ? ? ? ? ? ? ? IH|? ? ? ? ? ? ? ? IH]; [reflexivity| |].
        - apply IH. intros C. apply I. right. exact C.
        - rewrite IH by (intros C; apply I; right; exact C). apply get_upd_other. intros ->. apply I. left. reflexivity. }
      rewrite Hk, get_upd by exact Hf. destruct (addr_eqb_spec a a); [reflexivity|contradiction].
    + intros b H. rewrite R3 by (intros C; apply H; right; exact C). apply get_upd_other. intros ->. apply H. left. reflexivity.
Qed.

Lemma result_agree l1 l2 m m1 n n1 : agree (l1 ++ l2) m n -> result l1 m1 n n1 -> result l1 m1 m m1 ->
  agree l2 m1 n1.
Proof.
  intros [N A] (R1 & R2 & R3) (S1 & S2 & S3). split; [congruence|]. intros a H.
  destruct (in_dec access_eq_dec (Wr a) l1) as [I|I]; [rewrite R2 by exact I; reflexivity|].
  rewrite R3, S3 by exact I. apply A. apply touches_app. right. exact H.
Qed.

Lemma result_app l1 l2 m1 m2 n n1 n2 : result l1 m1 n n1 -> result l2 m2 n1 n2 -> result l2 m2 m1 m2 ->
  result (l1 ++ l2) m2 n n2.
Proof.
  intros (R1 & R2 & R3) (S1 & S2 & S3) (T1 & T2 & T3). split; [congruence|]. split.
  - intros a H. apply in_app_iff in H. destruct (in_dec access_eq_dec (Wr a) l2) as [I|I]; [apply S2; exact I|].
    rewrite S3, T3 by exact I. apply R2. tauto.
  - intros a H. rewrite in_app_iff in H. rewrite S3, R3 by tauto. reflexivity.
Qed.

Lemma pt_self m p l m' : ptrace m p l m' -> result l m' m m'.
Proof.
  induction 1 as [m|m a v k l m' Hv P IH|m a v k l m' Hf P IH].
  - split; [reflexivity|]. split; [intros a []|reflexivity].
  - destruct IH as (R1 & R2 & R3). split; [exact R1|]. split; [reflexivity|].
    intros b H. apply R3. intros C. apply H. right. exact C.
  - destruct IH as (R1 & R2 & R3). split; [exact R1|]. split; [reflexivity|].
    intros b H. rewrite R3 by (intros C; apply H; right; exact C). apply get_upd_other. intros ->. apply H. left. reflexivity.
Qed.

Lemma rf_self : (forall m t l m', race_free m t l m' -> result l m' m m') /\
  (forall m ts ls m', race_frees m ts ls m' -> result (concat ls) m' m m').
Proof.
  apply race_free_mut.
  - intros. apply pt_self with (p := p). assumption.
  - intros m t1 t2 l1 m1 l2 m2 _ IH1 _ IH2. eapply result_app; eassumption.
  - auto.
  - intros. split; [reflexivity|]. split; [intros a []|reflexivity].
  - intros m t l m1 ts ls m2 _ IH1 _ IH2. cbn. eapply result_app; eassumption.
Qed.

Lemma agree_l l1 l2 m n : agree (l1 ++ l2) m n -> agree l1 m n.
Proof. intros [N A]. split; [exact N|]. intros a H. apply A. apply touches_app. left. exact H. Qed.

Lemma rf_agree : (forall m t l m', race_free m t l m' -> forall n, agree l m n ->
    exists n', race_free n t l n' /\ result l m' n n') /\
  (forall m ts ls m', race_frees m ts ls m' -> forall n, agree (concat ls) m n ->
    exists n', race_frees n ts ls n' /\ result (concat ls) m' n n').
Proof.
  apply race_free_mut.
  - intros m p l m' P n A. destruct (pt_agree _ _ _ _ P n A) as (n' & P' & R). exists n'. split; [constructor; exact P'|exact R].
  - intros m t1 t2 l1 m1 l2 m2 Q1 IH1 Q2 IH2 n A.
    destruct (IH1 n (agree_l _ _ _ _ A)) as (n1 & P1 & R1).
    destruct (IH2 n1) as (n2 & P2 & R2); [eapply result_agree; [exact A|exact R1|apply rf_self in Q1; exact Q1]|].
    exists n2. split; [econstructor; eassumption|]. eapply result_app; [exact R1|exact R2|]. apply rf_self in Q2. exact Q2.
  - intros m ts ls m' _ IH F n A. destruct (IH n A) as (n' & R & E). exists n'. split; [constructor; assumption|exact E].
  - intros m n A. exists n. split; [constructor|]. split; [reflexivity|]. split; [intros a []|reflexivity].
  - intros m t l m1 ts ls m2 Q1 IH1 Q2 IH2 n A. cbn in A |- *.
    destruct (IH1 n (agree_l _ _ _ _ A)) as (n1 & P1 & R1).
    destruct (IH2 n1) as (n2 & P2 & R2); [eapply result_agree; [exact A|exact R1|apply rf_self in Q1; exact Q1]|].
    exists n2. split; [econstructor; eassumption|]. eapply result_app; [exact R1|exact R2|]. apply rf_self in Q2. exact Q2.
Qed.

Lemma meq_result l m m' n n' : meq m n -> result l m' m m' -> result l m' n n' -> meq m' n'.
Proof.
  intros [N E] (A1 & A2 & A3) (B1 & B2 & B3). split; [congruence|]. intros a.
  destruct (in_dec access_eq_dec (Wr a) l) as [I|I]; [rewrite B2 by exact I; reflexivity|].
  rewrite A3, B3 by exact I. apply E.
Qed.

Lemma meq_agree l m n : meq m n -> agree l m n.
Proof. intros [N E]. split; auto. Qed.

Lemma rfs_meq m ts ls m' n : race_frees m ts ls m' -> meq m n -> exists n', race_frees n ts ls n' /\ meq m' n'.
Proof.
  intros R E. destruct (proj2 rf_agree _ _ _ _ R n (meq_agree _ _ _ E)) as (n' & R' & X). exists n'.
  split; [exact R'|]. eapply meq_result; [exact E|apply (proj2 rf_self _ _ _ _ R)|exact X].
Qed.
Lemma rf_meq m t l m' n : race_free m t l m' -> meq m n -> exists n', race_free n t l n' /\ meq m' n'.
Proof.
  intros R E. destruct (proj1 rf_agree _ _ _ _ R n (meq_agree _ _ _ E)) as (n' & R' & X). exists n'.
  split; [exact R'|]. eapply meq_result; [exact E|apply (proj1 rf_self _ _ _ _ R)|exact X].
Qed.

Lemma thr_ind' (P : thr K -> Prop) : (forall p, P (Tp p)) -> (forall t1 t2, P t1 -> P t2 -> P (Tseq t1 t2)) ->
  (forall l, Forall P l -> P (Tpar l)) -> forall t, P t.
Proof.
  intros H1 H2 H3. fix IH 1. intros [p|t1 t2|l]; [apply H1|apply H2; apply IH|apply H3].
  induction l as [|t l IHl]; constructor; [apply IH|exact IHl].
Qed.

Lemma tdone_par l : tdone (Tpar l) <-> Forall (tdone (K:=K)) l.
Proof.
  cbn. induction l as [|t l IH]; [split; constructor|]. rewrite IH. split.
  - intros [A B]. constructor; assumption.
  - intros H. inversion H; auto.
Qed.

(** A finished thread has no accesses left. *)
Lemma done_rf t : tdone t -> forall m l m', race_free m t l m' -> l = [] /\ m' = m.
Proof.
  induction t as [p|t1 t2 IH1 IH2|ts IH] using thr_ind'; intros D m l m' R.
  - cbn in D. subst. inversion R as [? ? ? ? P| |]; subst. inversion P. auto.
  - destruct D as [D1 D2]. inversion R as [|? ? ? k1 n1 k2 ? R1 R2|]; subst.
    destruct (IH1 D1 _ _ _ R1) as [-> ->]. destruct (IH2 D2 _ _ _ R2) as [-> ->]. auto.
  - apply tdone_par in D. inversion R as [| |? ? ls ? RS F]; subst. clear R F.
    revert m ls RS. induction ts as [|t ts IHt]; intros m ls RS; inversion RS as [|? ? k n1 ? ls' ? R1 R2]; subst; [auto|].
    inversion IH as [|? ? IHa IHb]; subst. inversion D as [|? ? Da Db]; subst.
    destruct (IHa Da _ _ _ R1) as [-> ->]. cbn. apply IHt; assumption.
Qed.

Lemma rf_done t : tdone t -> forall m, race_free m t [] m.
Proof.
  induction t as [p|u1 u2 IH1 IH2|ts IH] using thr_ind'; intros D m0.
  - cbn in D. subst. constructor. constructor.
  - destruct D. change (@nil access) with (@nil access ++ []). econstructor; [apply IH1; assumption|apply IH2; assumption].
  - apply tdone_par in D. assert (E : exists ls, race_frees m0 ts ls m0 /\ Forall (eq []) ls).
    { clear - D IH. induction ts as [|u ts IHt]; [exists []; split; constructor|].
      inversion D; subst. inversion IH; subst. destruct (IHt H4 H2) as (ls & A & B).
      exists ([] :: ls). split; [econstructor; [apply H3; assumption|exact A]|constructor; auto]. }
    destruct E as (ls & A & B). assert (Ec : concat ls = []).
    { clear - B. induction B as [|? ? <- ? IH]; [reflexivity|exact IH]. }
    rewrite <- Ec. constructor; [exact A|]. clear - B. induction B as [|? l <- F IH]; constructor; [|exact IH].
    clear. induction l; constructor; [|exact IHl]. intros b. split; [intros []|]. intros _ [[]|[]].
Qed.

(** A thread that is not finished can make an access. *)
Lemma progress : (forall m t l m', race_free m t l m' -> tdone t \/ exists m1 t1, step m t m1 t1) /\
  (forall m ts ls m', race_frees m ts ls m' -> Forall (tdone (K:=K)) ts \/
     exists l1 t l2 m1 t1, ts = l1 ++ t :: l2 /\ step m t m1 t1).
Proof.
  apply race_free_mut.
  - intros m p l m' P. inversion P; subst.
    + left. reflexivity.
    + right. do 2 eexists. apply step_ld. eassumption.
    + right. do 2 eexists. apply step_st. assumption.
  - intros m t1 t2 l1 m1 l2 m2 R1 IH1 R2 IH2. destruct IH1 as [D|(m3 & t3 & S)].
    + destruct (done_rf _ D _ _ _ R1) as [-> ->]. destruct IH2 as [D2|(m3 & t3 & S)].
      * left. split; assumption.
      * right. do 2 eexists. apply step_seq2; eassumption.
    + right. do 2 eexists. apply step_seq1. eassumption.
  - intros m ts ls m' R IH F. destruct IH as [D|(l1 & t & l2 & m1 & t1 & -> & S)].
    + left. apply tdone_par. exact D.
    + right. do 2 eexists. apply step_par. eassumption.
  - intros m. left. constructor.
  - intros m t l m1 ts ls m2 R1 IH1 R2 IH2. destruct IH1 as [D|(m3 & t3 & S)].
    + destruct (done_rf _ D _ _ _ R1) as [-> ->]. destruct IH2 as [D2|(l1 & u & l2 & m3 & t3 & -> & S)].
      * left. constructor; assumption.
      * right. exists (t :: l1), u, l2, m3, t3. split; [reflexivity|exact S].
    + right. exists [], t, ts, m3, t3. split; [reflexivity|exact S].
Qed.

Lemma rfs_app ts1 ts2 : forall m ls m', race_frees m (ts1 ++ ts2) ls m' <->
  exists ls1 ls2 m1, ls = ls1 ++ ls2 /\ race_frees m ts1 ls1 m1 /\ race_frees m1 ts2 ls2 m'.
Proof.
  induction ts1 as [|t ts1 IH]; intros m ls m'.
  - cbn [app]. split.
    + intros H. exists [], ls, m. split; [reflexivity|]. split; [constructor|exact H].
    + intros (ls1 & ls2 & m1 & -> & H1 & H2). inversion H1; subst. exact H2.
  - cbn [app]. split.
    + intros H. inversion H as [|? ? k n1 ? ls' ? R1 R2]; subst. apply IH in R2 as (ls1 & ls2 & m3 & -> & A & B).
      exists (k :: ls1), ls2, m3. split; [reflexivity|]. split; [econstructor; eassumption|exact B].
    + intros (ls1 & ls2 & m1 & -> & H1 & H2). inversion H1 as [|? ? k n1 ? ls' ? R1 R2]; subst. cbn [app].
      econstructor; [eassumption|]. apply IH. exists ls', ls2, m1. split; [reflexivity|]. split; assumption.
Qed.

(** After an access the remaining thread is still free of races and ends in the
    same memory, with one access less. *)
Lemma preserve m t m1 t1 : step m t m1 t1 -> forall l m', race_free m t l m' ->
  exists x la lb m1', l = la ++ x :: lb /\ (next m1 = next m /\ forall a, x <> Wr a -> get m1 a = get m a) /\
    race_free m1 t1 (la ++ lb) m1' /\ meq m1' m'.
Proof.
  induction 1 as [m a v k Hv|m a v k Hf|m n k|m b k Hb|m m1 t1 t1' t2 S IH|m m1 t1 t2 t2' D S IH|m m1 l1 t t1 l2 S IH];
    intros l m' R.
  - inversion R as [? ? ? ? P| |]; subst. inversion P as [|? ? v' ? l' ? Hv' P'|]; subst.
    assert (v' = v) as -> by congruence. exists (Rd a), [], l', m'. split; [reflexivity|].
    split; [split; reflexivity|]. split; [constructor; exact P'|apply meq_refl].
  - inversion R as [? ? ? ? P| |]; subst. inversion P as [| |? ? ? ? l' ? Hf' P']; subst.
    exists (Wr a), [], l', m'. split; [reflexivity|]. split; [split; [reflexivity|]|].
    + intros b Hb. apply get_upd_other. congruence.
    + split; [constructor; exact P'|apply meq_refl].
  - inversion R as [? ? ? ? P| |]; subst. inversion P.
  - inversion R as [? ? ? ? P| |]; subst. inversion P.
  - inversion R as [|? ? ? k1 n1 k2 ? R1 R2|]; subst. destruct (IH _ _ R1) as (x & la & lb & m2 & -> & E & R' & M).
    destruct (rf_meq _ _ _ _ m2 R2 (meq_sym _ _ M)) as (n2 & R2' & M2).
    exists x, la, (lb ++ k2), n2. split; [rewrite <- app_assoc; reflexivity|]. split; [exact E|].
    split; [|apply meq_sym; exact M2]. rewrite app_assoc. econstructor; eassumption.
  - inversion R as [|? ? ? k1 n1 k2 ? R1 R2|]; subst. destruct (done_rf _ D _ _ _ R1) as [-> ->].
    destruct (IH _ _ R2) as (x & la & lb & m2 & -> & E & R' & M).
    exists x, la, lb, m2. split; [reflexivity|]. split; [exact E|]. split; [|exact M].
    change (la ++ lb) with ([] ++ la ++ lb). econstructor; [|exact R']. apply rf_done. exact D.
  - inversion R as [| |? ? ls ? RS F]; subst.
    apply rfs_app in RS as (ls1 & ls2' & n1 & -> & RS1 & RS2). inversion RS2 as [|? ? k n2 ? ls2 ? Rt RS3]; subst.
    apply fop_app in F as (F1 & F2 & F3). inversion F2 as [|? ? F4 F5]; subst.
    assert (CF : conflict_free (concat ls1) k).
    { intros a. split.
      - intros H. apply in_concat in H as (y & Hy & H). apply (F3 y k Hy (or_introl eq_refl)). exact H.
      - intros H [T|T]; apply in_concat in T as (y & Hy & T);
          apply (proj2 (F3 y k Hy (or_introl eq_refl) a) H); [left|right]; exact T. }
    destruct (proj2 rf_self _ _ _ _ RS1) as (P1 & P2 & P3).
    destruct (proj1 rf_self _ _ _ _ Rt) as (T1 & T2 & T3).
    (* the branch can start before the earlier branches *)
    destruct (proj1 rf_agree _ _ _ _ Rt m) as (m2 & Rm & A1 & A2 & A3).
    { split; [exact P1|]. intros a H. apply P3. intros C. apply (proj1 (CF a) C H). }
    destruct (IH _ _ Rm) as (x & la & lb & m1' & -> & [E1 E2] & R' & [M1 M2]).
    destruct (proj1 rf_self _ _ _ _ R') as (B1 & B2 & B3).
    (* the earlier branches after the access *)
    assert (Hx : forall a, x = Wr a -> ~ touches a (concat ls1)).
    { intros a -> . apply (CF a). apply in_or_app. right. left. reflexivity. }
    destruct (proj2 rf_agree _ _ _ _ RS1 m1) as (n1' & RS1' & C1 & C2 & C3).
    { split; [congruence|]. intros a H. symmetry. apply E2. intros X. apply (Hx a X H). }
    (* the rest of the branch after that *)
    destruct (proj1 rf_agree _ _ _ _ R' n1') as (n2' & R'' & D1 & D2 & D3).
    { split; [congruence|]. intros a H. symmetry. apply C3. intros C. apply (proj1 (CF a) C).
      apply touches_app. apply touches_app in H as [[H|H]|[H|H]]; [left; left|left; right|right; left; right|right; right; right]; exact H. }
    assert (Mn : meq n2 n2').
    { split; [congruence|]. intros a.
      destruct (in_dec access_eq_dec (Wr a) (la ++ lb)) as [I|I].
      - rewrite D2 by exact I. rewrite M2. symmetry. apply A2. apply in_app_iff in I. apply in_or_app. cbn. tauto.
      - rewrite D3 by exact I. destruct (access_eq_dec x (Wr a)) as [->|X].
        + rewrite C3 by (intros C; apply (Hx a eq_refl); right; exact C). rewrite <- (B3 a I), M2. symmetry. apply A2.
          apply in_or_app. right. left. reflexivity.
        + assert (N : ~ In (Wr a) (la ++ x :: lb)).
          { intros C. apply I. apply in_app_iff in C as [C|[C|C]]; [| |]; [apply in_or_app; tauto|congruence|apply in_or_app; tauto]. }
          rewrite T3 by exact N. destruct (in_dec access_eq_dec (Wr a) (concat ls1)) as [J|J].
          * symmetry. apply C2. exact J.
          * rewrite C3, P3 by exact J. symmetry. apply E2. exact X. }
    destruct (rfs_meq _ _ _ _ n2' RS3 Mn) as (n3 & RS3' & M3).
    exists x, (concat ls1 ++ la), (lb ++ concat ls2), n3.
    split; [rewrite concat_app; cbn; rewrite <- !app_assoc; reflexivity|]. split; [split; assumption|].
    split; [|apply meq_sym; exact M3].
    replace ((concat ls1 ++ la) ++ lb ++ concat ls2) with (concat (ls1 ++ (la ++ lb) :: ls2))
      by (rewrite concat_app; cbn; rewrite <- !app_assoc; reflexivity).
    constructor.
    + apply rfs_app. exists ls1, ((la ++ lb) :: ls2), n1'. split; [reflexivity|]. split; [exact RS1'|].
      econstructor; eassumption.
    + assert (Sub : forall y, conflict_free (la ++ x :: lb) y -> conflict_free (la ++ lb) y).
      { intros y H a. destruct (H a) as [H1 H2]. split.
        - intros I. apply H1. apply in_app_iff in I. apply in_or_app. cbn. tauto.
        - intros I T. apply (H2 I). apply touches_app. apply touches_app in T as [T|[T|T]];
            [left; exact T|right; left; right; exact T|right; right; right; exact T]. }
      assert (Sym : forall y z, conflict_free y z -> conflict_free z y).
      { intros y z H a. destruct (H a). split; assumption. }
      apply fop_app. split; [exact F1|]. split.
      * constructor; [|exact F5]. eapply Forall_impl; [|exact F4]. intros y. apply Sub.
      * intros y z Hy [<-|Hz]; [|apply F3; [exact Hy|right; exact Hz]].
        apply Sym, Sub, Sym. apply F3; [exact Hy|left; reflexivity].
Qed.

(** Every execution of a race-free thread is finite, never gets stuck and ends
    in the memory of the sequential execution. *)
Theorem interleave m t l m' : race_free m t l m' ->
  forall (k : nat) m1 t1, steps k m t m1 t1 ->
    k <= length l /\
    (tdone t1 -> k = length l /\ meq m1 m') /\
    (tdone t1 \/ exists m2 t2, step m1 t1 m2 t2).
Proof.
  intros R k m1 t1 S. revert l m' R. induction S as [m t|k m t m2 t2 m1 t1 S1 S IH]; intros l m' R.
  - split; [lia|]. split.
    + intros D. destruct (done_rf _ D _ _ _ R) as [-> ->]. split; [reflexivity|apply meq_refl].
    + apply (proj1 progress _ _ _ _ R).
  - destruct (preserve _ _ _ _ S1 _ _ R) as (x & la & lb & m3 & -> & _ & R' & M).
    destruct (IH _ _ R') as (H1 & H2 & H3). rewrite app_length in *. cbn [length]. split; [lia|]. split; [|exact H3].
    intros D. destruct (H2 D) as [L E]. split; [lia|]. eapply meq_trans; eassumption.
Qed.

(** The sequential program has the same result. *)
Lemma pt_run m p l m' : ptrace m p l m' -> run p m = Ok (tt, m').
Proof.
  induction 1 as [m|m a v k l m' Hv P IH|m a v k l m' Hf P IH]; cbn; [reflexivity| |].
  - rewrite Hv. exact IH.
  - destruct (get m a); [contradiction| |]; exact IH.
Qed.

Lemma run_bind {A B} (p : prog K A) (f : A -> prog K B) : forall m,
  run (bind p f) m = match run p m with Ok (a, m') => run (f a) m' | Err e => Err e end.
Proof.
  induction p as [a|e|a k IH|a v k IH|n k IH|b k IH]; intros m; cbn; try reflexivity.
  - destruct (get m a); try reflexivity. apply IH.
  - destruct (get m a); try reflexivity; apply IH.
  - apply IH.
  - destruct (b <? next m); [apply IH|reflexivity].
Qed.

Lemma rf_run : (forall m t l m', race_free m t l m' -> run (seqprog t) m = Ok (tt, m')) /\
  (forall m ts ls m', race_frees m ts ls m' -> run (seqprog (Tpar ts)) m = Ok (tt, m')).
Proof.
  apply race_free_mut.
  - intros m p l m' P. apply pt_run with (l := l). exact P.
  - intros m t1 t2 l1 m1 l2 m2 _ IH1 _ IH2. cbn. rewrite run_bind, IH1. exact IH2.
  - auto.
  - intros m. reflexivity.
  - intros m t l m1 ts ls m2 _ IH1 _ IH2. cbn [seqprog]. rewrite run_bind, IH1. exact IH2.
Qed.

(** Programs that satisfy a [wp] and do not allocate have a trace inside their
    footprint. *)
Fixpoint noalloc {A} (p : prog K A) : Prop :=
  match p with
  | Ret _ | Fail _ => True
  | Ld _ k => forall v, noalloc (k v)
  | St _ _ k => noalloc k
  | New _ _ | Del _ _ => False
  end.

Definition inside (R W : addr -> Prop) (l : list access) : Prop :=
  forall a, (In (Rd a) l -> R a \/ W a) /\ (In (Wr a) l -> W a).

Lemma wp_trace (p : prog K unit) R W (Q : unit -> mem K -> Prop) : forall m, noalloc p -> wp R W p m Q ->
  exists l m', ptrace m p l m' /\ inside R W l /\ Q tt m'.
Proof.
  induction p as [[]|e|a k IH|a v k IH|n k IH|b k IH]; cbn; intros m N H; try contradiction.
  - exists [], m. split; [constructor|]. split; [|exact H]. intros a. split; intros [].
  - destruct H as [Ha [v [Hv Hk]]]. destruct (IH v m (N v) Hk) as (l & m' & P & I & HQ). exists (Rd a :: l), m'.
    split; [econstructor; eassumption|]. split; [|exact HQ]. intros b. split.
    + intros [E|E]; [injection E as <-; exact Ha|apply I; exact E].
    + intros [E|E]; [discriminate|apply I; exact E].
  - destruct H as [Ha [Hf Hk]]. destruct (IH (upd m a v) N Hk) as (l & m' & P & I & HQ). exists (Wr a :: l), m'.
    split; [constructor; assumption|]. split; [|exact HQ]. intros b. split.
    + intros [E|E]; [discriminate|apply I; exact E].
    + intros [E|E]; [injection E as <-; exact Ha|apply I; exact E].
Qed.

Lemma inside_free (R1 W1 R2 W2 : addr -> Prop) l1 l2 :
  (forall a, W1 a -> ~ (R2 a \/ W2 a)) -> (forall a, W2 a -> ~ (R1 a \/ W1 a)) ->
  inside R1 W1 l1 -> inside R2 W2 l2 -> conflict_free l1 l2.
Proof.
  intros D1 D2 I1 I2 a. destruct (I1 a) as [A1 A2], (I2 a) as [B1 B2]. split; intros H [T|T].
  - apply (D1 a (A2 H)). apply B1. exact T.
  - apply (D1 a (A2 H)). right. apply B2. exact T.
  - apply (D2 a (B2 H)). apply A1. exact T.
  - apply (D2 a (B2 H)). right. apply A2. exact T.
Qed.

Lemma rf_det m t l m' : race_free m t l m' -> deterministic m t m'.
Proof.
  intros R. split; [apply (proj1 rf_run) with (l := l); exact R|]. exists (length l). intros. eapply interleave; eassumption.
Qed.

Lemma within_trace (R W : addr -> Prop) (p : prog K unit) : within R W p ->
  forall m m', run p m = Ok (tt, m') -> exists l, ptrace m p l m' /\ inside R W l.
Proof.
  induction p as [[]|e|a k IH|a v k IH|n k IH|b k IH]; cbn; intros N m m' H; try contradiction; try discriminate.
  - injection H as <-. exists []. split; [constructor|]. intros a. split; intros [].
  - destruct (get m a) as [| |v] eqn:G; try discriminate. destruct N as [Ha Nk].
    destruct (IH v (Nk v) m m' H) as (l & P & I). exists (Rd a :: l).
    split; [econstructor; eassumption|]. intros b. split.
    + intros [E|E]; [injection E as <-; exact Ha|apply I; exact E].
    + intros [E|E]; [discriminate|apply I; exact E].
  - destruct N as [Ha Nk]. assert (G : get m a <> Free) by (intros G; rewrite G in H; discriminate).
    assert (H' : run k (upd m a v) = Ok (tt, m')) by (destruct (get m a); [contradiction| |]; exact H).
    destruct (IH Nk _ _ H') as (l & P & I). exists (Wr a :: l).
    split; [constructor; assumption|]. intros b. split.
    + intros [E|E]; [discriminate|apply I; exact E].
    + intros [E|E]; [injection E as <-; exact Ha|apply I; exact E].
Qed.

Lemma inside_app (R W : addr -> Prop) l1 l2 : inside R W l1 -> inside R W l2 -> inside R W (l1 ++ l2).
Proof. intros A B a. destruct (A a), (B a). rewrite !in_app_iff. tauto. Qed.

Lemma inside_mono (R W R' W' : addr -> Prop) l : (forall a, R a -> R' a) -> (forall a, W a -> W' a) ->
  inside R W l -> inside R' W' l.
Proof. intros A B I a. destruct (I a) as [I1 I2]. split; intros H; [destruct (I1 H); auto|auto]. Qed.

Lemma inside_nil (R W : addr -> Prop) : inside R W [].
Proof. intros a. split; intros []. Qed.

Lemma rfs_seq m ts ls m' : race_frees m ts ls m' -> race_free m (fold_right Tseq (Tp (Ret tt)) ts) (concat ls ++ []) m'.
Proof.
  revert m ls m'. induction ts as [|t ts IH]; intros m ls m' H; inversion H; subst; cbn.
  - constructor. constructor.
  - rewrite <- app_assoc. econstructor; [eassumption|]. apply IH. assumption.
Qed.
End Threads.
