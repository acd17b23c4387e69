(** * Programs on lists of owned matrices with known contents *)
From Coq Require Import Arith Lia List Bool Permutation Ring.
From Verif Require Import Fld Ord Prog Arr View Loop Line Spec Cluster Block Avector Amatrix AvectorP AmatrixP AmatrixP2 Rkmatrix RkSpec RkP Factor FactorSpec FactorP FactorP2 FactorP3 LrP
  Chol CholSpec Qr QrSpec QrP QrP2 QrP3 QrP4 QrP7 QrP8 QrP10 CbmSpec CbmP CopSpec OrthoP.
Import ListNotations.

(** ** Lists *)
Fixpoint setn {A} (n : nat) (x : A) (l : list A) : list A :=
  match n, l with _, [] => [] | O, _ :: l => x :: l | S n, y :: l => y :: setn n x l end.
Fixpoint deln {A} (n : nat) (l : list A) : list A :=
  match n, l with _, [] => [] | O, _ :: l => l | S n, y :: l => y :: deln n l end.
Lemma nth_setn {A} n (x : A) l i : nth_error (setn n x l) i = if (i =? n) && (n <? length l) then Some x else nth_error l i.
Proof.
  revert n i. induction l as [|y l IH]; intros n i.
  - destruct n; cbn; destruct i; try reflexivity; destruct (_ =? _); reflexivity.
  - destruct n as [|n]; destruct i as [|i]; cbn [setn nth_error]; try reflexivity.
    + rewrite IH. cbn [length]. change (S i =? S n) with (i =? n). change (S n <? S (length l)) with (n <? length l). reflexivity.
Qed.
Lemma perm_deln {A} n (x : A) l : nth_error l n = Some x -> Permutation l (x :: deln n l).
Proof.
  revert n. induction l as [|y l IH]; intros [|n] H; try discriminate; cbn in *.
  - injection H as ->. reflexivity.
  - rewrite (IH n H) at 1. apply perm_swap.
Qed.
Lemma perm_setn {A} n (x y : A) l : nth_error l n = Some x -> Permutation (setn n y l) (y :: deln n l).
Proof.
  revert n. induction l as [|z l IH]; intros [|n] H; try discriminate; cbn in *.
  - reflexivity.
  - rewrite (IH n H) at 1. apply perm_swap.
Qed.
Lemma map_deln {A B} (f : A -> B) n l : map f (deln n l) = deln n (map f l).
Proof. revert n. induction l as [|y l IH]; intros [|n]; cbn; try reflexivity. rewrite IH. reflexivity. Qed.
Lemma map_setn {A B} (f : A -> B) n x l : map f (setn n x l) = setn n (f x) (map f l).
Proof. revert n. induction l as [|y l IH]; intros [|n]; cbn; try reflexivity. rewrite IH. reflexivity. Qed.
Lemma setn_same {A} n (x : A) l : nth_error l n = Some x -> setn n x l = l.
Proof. revert n. induction l as [|y l IH]; intros [|n] H; try discriminate; cbn in *; [congruence|rewrite IH by exact H; reflexivity]. Qed.
Lemma setn_setn {A} n (x y : A) l : setn n x (setn n y l) = setn n x l.
Proof. revert n. induction l as [|z l IH]; intros [|n]; cbn; try reflexivity. rewrite IH. reflexivity. Qed.
Lemma in_deln {A} n (x : A) l : In x (deln n l) -> In x l.
Proof. revert n. induction l as [|y l IH]; intros [|n] H; cbn in *; auto. destruct H as [->|H]; auto. right. eapply IH, H. Qed.

Section Sep.
Context {K : fops}.
Implicit Types (m : mem K) (D : nat -> Prop) (bs : list nat).

(** A matrix and the part of its contents that is known *)
Definition ent := (mat * (nat -> nat -> Prop) * (nat -> nat -> K))%type.
Definition emat (e : ent) : mat := fst (fst e).
Definition holds m (e : ent) : Prop := pval m (emat e) (snd (fst e)) (snd e).
Definition full (A : mat) (f : nat -> nat -> K) : ent := (A, fun _ _ => True, f).
Definition unk (A : mat) : ent := (A, fun _ _ => False, fun _ _ => f0).
Lemma full_mval m A f : holds m (full A f) <-> mval m A f.
Proof. split; intros H i j Hi Hj; [exact (H i j Hi Hj I)|intros _; exact (H i j Hi Hj)]. Qed.

(** In the current memory the matrices [L] are owned and have the given contents; since [m0] only the
    blocks [bs] and new ones have changed; apart from those of [L] no block satisfying [D] is in use. *)
Record st m0 bs D (L : list ent) m : Prop := St_ {
  st_lm : lm D m (map emat L);
  st_val : forall e, In e L -> holds m e;
  st_kb : kb bs m0 m;
  st_old : forall e, In e L -> In (mblk (emat e)) bs \/ next m0 <= mblk (emat e) }.

Lemma st_start m bs D L : lm D m (map emat L) -> (forall e, In e L -> holds m e) -> (forall e, In e L -> In (mblk (emat e)) bs) -> st m bs D L m.
Proof. intros H1 H2 H3. constructor; auto. apply kb_refl. Qed.
Lemma st_own m0 bs D L m n A ok f : st m0 bs D L m -> nth_error L n = Some (A, ok, f) -> matown m A.
Proof. intros H Hn. eapply lm_own; [apply H|]. apply nth_error_In in Hn. apply (in_map emat _ _ Hn). Qed.
Lemma st_mval m0 bs D L m n A f : st m0 bs D L m -> nth_error L n = Some (full A f) -> mval m A f.
Proof. intros H Hn. apply nth_error_In in Hn. apply (st_val _ _ _ _ _ H) in Hn. apply full_mval, Hn. Qed.
Lemma nodup_nth {A} (l : list A) i j x y : NoDup l -> nth_error l i = Some x -> nth_error l j = Some y -> i <> j -> x <> y.
Proof. intros HN Hi Hj Hne E. subst y. apply Hne. eapply (NoDup_nth_error l); [exact HN| |congruence]. apply nth_error_Some. congruence. Qed.
Lemma st_neq m0 bs D L m i j e e' : st m0 bs D L m -> nth_error L i = Some e -> nth_error L j = Some e' -> i <> j -> mblk (emat e) <> mblk (emat e').
Proof.
  intros H Hi Hj Hne. destruct (st_lm _ _ _ _ _ H) as (_ & HN & _). rewrite map_map in HN.
  eapply (nodup_nth _ i j _ _ HN); [apply (map_nth_error (fun x => mblk (emat x))), Hi|apply (map_nth_error (fun x => mblk (emat x))), Hj|exact Hne].
Qed.
Lemma st_ext m0 bs D L m n e X : st m0 bs D L m -> nth_error L n = Some e -> mblk X < next m0 -> ~ In (mblk X) bs -> mblk X <> mblk (emat e).
Proof. intros H Hn Hx Hb E. apply nth_error_In in Hn. destruct (st_old _ _ _ _ _ H _ Hn) as [HI|HI]; [apply Hb; rewrite E; exact HI|lia]. Qed.
Lemma st_extval m0 bs D L m X f : st m0 bs D L m -> mval m0 X f -> mblk X < next m0 -> ~ In (mblk X) bs -> mval m X f.
Proof. intros H HX Hb Hn. eapply mval_kb; [exact HX|apply H|exact Hb|exact Hn]. Qed.

(** Changes of the contents *)
Lemma st_step m0 bs D L L' m m' (W : addr -> Prop) : st m0 bs D L m -> keeps W m m' -> (forall a, W a -> exists e, In e L /\ inm (emat e) a) -> map emat L' = map emat L ->
  (forall e, In e L' -> (In e L /\ disj (inm (emat e)) W) \/ (malloc m' (emat e) /\ holds m' e)) -> st m0 bs D L' m'.
Proof.
  intros H Hk HW EL HE.
  assert (HO : forall e, In e L' -> exists e0, In e0 L /\ emat e0 = emat e).
  { intros e He. apply (in_map emat) in He. rewrite EL in He. apply in_map_iff in He as (e0 & E0 & H0). eauto. }
  constructor.
  - rewrite EL. eapply lm_writes; [apply H|exact Hk| |].
    + intros a Ha. destruct (HW a Ha) as (e & He & Hi). exists (emat e). split; [apply in_map, He|exact Hi].
    + intros A HA. rewrite <- EL in HA. apply in_map_iff in HA as (e & <- & He). destruct (HE e He) as [[_ Hd]|[Hm _]]; [right; intros a Ha Hb; eapply Hd; eassumption|left; exact Hm].
  - intros e He. destruct (HE e He) as [[HI Hd]|[_ Hh]]; [|exact Hh].
    intros i j Hi Hj Hok. rewrite (proj2 Hk); [apply (st_val _ _ _ _ _ H e HI); assumption|]. intros Hw. eapply Hd; [|exact Hw]. exists i, j. auto.
  - eapply kb_trans; [apply H|eapply (kb_of W (map (fun e => mblk (emat e)) L)); [exact Hk|]|auto|].
    + intros a Ha. left. destruct (HW a Ha) as (e & He & Hi). apply inm_blk in Hi. rewrite Hi. apply (in_map (fun e => mblk (emat e))), He.
    + intros b Hb. apply in_map_iff in Hb as (e & <- & He). apply (st_old _ _ _ _ _ H e He).
  - intros e He. destruct (HO e He) as (e0 & H0 & E0). rewrite <- E0. apply (st_old _ _ _ _ _ H e0 H0).
Qed.
Lemma in_setn {A} n (x y : A) l : In y (setn n x l) -> y = x \/ exists i, i <> n /\ nth_error l i = Some y.
Proof.
  intros H. apply In_nth_error in H as [i Hi]. rewrite nth_setn in Hi. destruct (Nat.eqb_spec i n) as [E0|Hne]; cbn [andb] in Hi.
  - subst i. destruct (n <? length l) eqn:E; [left; congruence|]. apply Nat.ltb_ge in E. apply nth_error_None in E. congruence.
  - right. exists i. auto.
Qed.

Lemma st_write m0 bs D L m m' n A ok f ok' f' : st m0 bs D L m -> nth_error L n = Some (A, ok, f) -> keeps (inm A) m m' -> malloc m' A -> pval m' A ok' f' ->
  st m0 bs D (setn n (A, ok', f') L) m'.
Proof.
  intros H Hn Hk Hm Hv. eapply st_step; [exact H|exact Hk| | |].
  - intros a Ha. exists (A, ok, f). split; [eapply nth_error_In, Hn|exact Ha].
  - rewrite map_setn. cbn. apply setn_same. exact (map_nth_error emat n L Hn).
  - intros e He. destruct (in_setn _ _ _ _ He) as [->|(i & Hne & Hi)]; [right; split; [exact Hm|exact Hv]|left].
    split; [eapply nth_error_In, Hi|]. intros a Ha Hb. apply inm_blk in Ha, Hb. pose proof (st_neq _ _ _ _ _ _ _ _ _ H Hi Hn Hne) as HN. cbn in HN. congruence.
Qed.
Lemma st_writef m0 bs D L m m' n A ok f f' : st m0 bs D L m -> nth_error L n = Some (A, ok, f) -> keeps (inm A) m m' -> mval m' A f' ->
  st m0 bs D (setn n (full A f') L) m'.
Proof. intros H Hn Hk Hv. eapply st_write; [exact H|exact Hn|exact Hk|eapply mval_alloc, Hv|]. intros i j Hi Hj _. apply Hv; assumption. Qed.
(** Writing a submatrix *)
Definition insub (roff rows coff cols : nat) (i j : nat) : Prop := roff <= i < roff + rows /\ coff <= j < coff + cols.
Definition subval (roff rows coff cols : nat) (g f : nat -> nat -> K) (i j : nat) : K :=
  if (roff <=? i) && (i <? roff + rows) && (coff <=? j) && (j <? coff + cols) then g (i - roff) (j - coff) else f i j.
Lemma inm_subm A roff rows coff cols a : roff + rows <= mrows A -> coff + cols <= mcols A -> inm (subm A roff rows coff cols) a -> inm A a.
Proof. intros Hr Hc (i & j & Hi & Hj & ->). rewrite ma_subm. cbn in Hi, Hj. exists (roff + i), (coff + j). repeat split; lia. Qed.
Lemma st_writep m0 bs D L m m' n A ok f roff rows coff cols g : st m0 bs D L m -> nth_error L n = Some (A, ok, f) -> roff + rows <= mrows A -> coff + cols <= mcols A ->
  keeps (inm (subm A roff rows coff cols)) m m' -> mval m' (subm A roff rows coff cols) g ->
  st m0 bs D (setn n (A, (fun i j => ok i j \/ insub roff rows coff cols i j), subval roff rows coff cols g f) L) m'.
Proof.
  intros H Hn Hr Hc Hk Hv. destruct (st_own _ _ _ _ _ _ _ _ _ H Hn) as (_ & _ & Hw & Hal).
  assert (HI : forall a, inm (subm A roff rows coff cols) a -> inm A a) by (intros a; apply inm_subm; assumption).
  assert (HS : forall i j, i < mrows A -> j < mcols A -> insub roff rows coff cols i j -> get m' (ma A i j) = Val (g (i - roff) (j - coff))).
  { intros i j Hi Hj [Hi' Hj']. specialize (Hv (i - roff) (j - coff)). rewrite ma_subm in Hv. cbn in Hv. replace (roff + (i - roff)) with i in Hv by lia. replace (coff + (j - coff)) with j in Hv by lia.
    apply Hv; lia. }
  assert (HO : forall i j, i < mrows A -> j < mcols A -> ~ insub roff rows coff cols i j -> get m' (ma A i j) = get m (ma A i j)).
  { intros i j Hi Hj Hno. apply (proj2 Hk). intros (p & q & Hp & Hq & E). cbn in Hp, Hq. rewrite ma_subm in E. apply ma_inj in E; [|exact Hw|lia|lia]. apply Hno. unfold insub. lia. }
  assert (DEC : forall i j, insub roff rows coff cols i j \/ ~ insub roff rows coff cols i j) by (intros i j; unfold insub; lia).
  eapply st_write; [exact H|exact Hn|eapply keeps_mono; [exact HI|exact Hk]| |].
  - intros i j Hi Hj. destruct (DEC i j) as [Y|N]; [rewrite HS by assumption; discriminate|rewrite HO by assumption; apply Hal; assumption].
  - intros i j Hi Hj Hok. unfold subval. destruct (DEC i j) as [Y|N].
    + rewrite HS by assumption. unfold insub in Y. bsplit; try lia. reflexivity.
    + destruct Hok as [Hok|Hok]; [|contradiction]. rewrite HO by assumption. pose proof (nth_error_In _ _ Hn) as HIn. apply (st_val _ _ _ _ _ H) in HIn. cbn in HIn. unfold insub in N.
      bsplit; try lia; apply HIn; assumption.
Qed.
(** Forgetting or rewriting contents *)
Lemma st_conv m0 bs D L m n A (ok : nat -> nat -> Prop) f (ok' : nat -> nat -> Prop) f' : st m0 bs D L m -> nth_error L n = Some (A, ok, f) -> (forall i j, i < mrows A -> j < mcols A -> ok' i j -> ok i j /\ f' i j = f i j) ->
  st m0 bs D (setn n (A, ok', f') L) m.
Proof.
  intros H Hn HC. eapply st_write; [exact H|exact Hn|apply keeps_refl|apply (st_own _ _ _ _ _ _ _ _ _ H Hn)|].
  intros i j Hi Hj Hok. destruct (HC i j Hi Hj Hok) as [H1 ->]. pose proof (nth_error_In _ _ Hn) as HIn. apply (st_val _ _ _ _ _ H) in HIn. apply HIn; assumption.
Qed.

(** ** Allocation *)
Lemma s_init m0 bs D L m r c (Q : mat -> mem K -> Prop) : st m0 bs D L m ->
  (forall A m', mrows A = r -> mcols A = c -> st m0 bs D (unk A :: L) m' -> Q A m') -> wp TT TT (init_amatrix r c) m Q.
Proof.
  intros H HQ. eapply wp_init_kb; [apply H|]. intros A m' -> Hl Hk. apply HQ; [reflexivity|reflexivity|].
  assert (Hn : next m0 <= next m) by (eapply kb_next; apply H). constructor.
  - exact Hl.
  - intros e [<-|He]; [intros i j _ _ []|]. intros i j Hi Hj Hok.
    assert (Hb : mblk (emat e) < next m) by (eapply lm_blk; [apply H|]; apply in_map, in_map, He).
    rewrite (kb_get [] m m'); [apply (st_val _ _ _ _ _ H e He); assumption|exact Hk|exact Hb|intros []].
  - eapply kb_trans; [apply H|exact Hk|auto|]. intros b [].
  - intros e [<-|He]; [right; exact Hn|apply (st_old _ _ _ _ _ H e He)].
Qed.
Lemma s_initv m0 bs D L m n (Q : vec -> mem K -> Prop) : st m0 bs D L m ->
  (forall v m', vdim v = n -> st m0 bs D (unk (vm v) :: L) m' -> Q v m') -> wp TT TT (init_avector n) m Q.
Proof.
  intros H HQ. eapply wp_initv_lm; [apply H|]. intros v m' -> Hl Hk. apply HQ; [reflexivity|].
  assert (Hn : next m0 <= next m) by (eapply kb_next; apply H). constructor.
  - exact Hl.
  - intros e [<-|He]; [intros i j _ _ []|]. intros i j Hi Hj Hok.
    assert (Hb : mblk (emat e) < next m) by (eapply lm_blk; [apply H|]; apply in_map, in_map, He).
    rewrite (kb_get [] m m'); [apply (st_val _ _ _ _ _ H e He); assumption|exact Hk|exact Hb|intros []].
  - eapply kb_trans; [apply H|exact Hk|auto|]. intros b [].
  - intros e [<-|He]; [right; exact Hn|apply (st_old _ _ _ _ _ H e He)].
Qed.
Lemma st_dealloc m0 bs D L m m' n e : st m0 bs D L m -> nth_error L n = Some e -> lm D m' (map emat (deln n L)) -> kb [mblk (emat e)] m m' -> st m0 bs D (deln n L) m'.
Proof.
  intros H Hn Hl Hk. constructor.
  - exact Hl.
  - intros x Hx i j Hi Hj Hok. pose proof (in_deln _ _ _ Hx) as HxL.
    assert (Hb : mblk (emat x) < next m) by (eapply lm_blk; [apply H|]; apply in_map, in_map, HxL).
    rewrite (kb_get [mblk (emat e)] m m'); [apply (st_val _ _ _ _ _ H x HxL); assumption|exact Hk|exact Hb|]. intros [E|[]]. cbn [fst ma] in E.
    assert (HN : NoDup (map mblk (map emat (e :: deln n L)))).
    { eapply Permutation_NoDup; [apply Permutation_map, Permutation_map, perm_deln, Hn|]. apply H. }
    cbn in HN. inversion HN as [|? ? N1 _]; subst. apply N1. rewrite E. apply in_map, in_map, Hx.
  - eapply kb_trans; [apply H|exact Hk|auto|]. intros b [<-|[]]. apply (st_old _ _ _ _ _ H), (nth_error_In _ _ Hn).
  - intros x Hx. apply (st_old _ _ _ _ _ H). eapply in_deln, Hx.
Qed.
Lemma st_front m0 bs D L m n e : st m0 bs D L m -> nth_error L n = Some e -> lm D m (emat e :: map emat (deln n L)).
Proof. intros H Hn. eapply lm_perm; [|apply H]. exact (Permutation_map emat (perm_deln n e L Hn)). Qed.
Lemma s_uninit n m0 bs D L m A ok f (Q : unit -> mem K -> Prop) : st m0 bs D L m -> nth_error L n = Some (A, ok, f) ->
  (forall m', st m0 bs D (deln n L) m' -> Q tt m') -> wp TT TT (uninit_amatrix A) m Q.
Proof. intros H Hn HQ. eapply wp_uninit_kb; [apply (st_front _ _ _ _ _ _ _ H Hn)|]. intros m' Hl Hk. apply HQ. eapply st_dealloc; [exact H|exact Hn|exact Hl|exact Hk]. Qed.
Lemma s_uninitv n m0 bs D L m v ok f (Q : unit -> mem K -> Prop) : st m0 bs D L m -> nth_error L n = Some (vm v, ok, f) ->
  (forall m', st m0 bs D (deln n L) m' -> Q tt m') -> wp TT TT (uninit_avector v) m Q.
Proof. intros H Hn HQ. eapply wp_uninitv_lm; [apply (st_front _ _ _ _ _ _ _ H Hn)|]. intros m' Hl Hk. apply HQ. eapply st_dealloc; [exact H|exact Hn|exact Hl|exact Hk]. Qed.
Lemma s_resize n m0 bs D L m A ok f r c (Q : mat -> mem K -> Prop) : st m0 bs D L m -> nth_error L n = Some (A, ok, f) ->
  (forall B m', mrows B = r -> mcols B = c -> st m0 bs D (setn n (unk B) L) m' -> Q B m') -> wp TT TT (resize_amatrix A r c) m Q.
Proof.
  intros H Hn HQ. eapply wp_resize_lm; [apply (st_front _ _ _ _ _ _ _ H Hn)|]. intros B m' Er Ec Hl Hb Hk. apply HQ; [exact Er|exact Ec|].
  assert (Hk' : kb [mblk A] m m') by (eapply kb_of; [exact Hk|]; cbn; intros a [Ha|Ha]; auto).
  assert (Hnx : next m0 <= next m) by (eapply kb_next; apply H).
  assert (HP : Permutation (setn n (unk B) L) (unk B :: deln n L)) by (eapply perm_setn, Hn).
  constructor.
  - eapply lm_perm; [symmetry; apply Permutation_map, HP|exact Hl].
  - intros x Hx. apply (Permutation_in _ HP) in Hx. destruct Hx as [<-|Hx]; [intros i j _ _ []|]. intros i j Hi Hj Hok. pose proof (in_deln _ _ _ Hx) as HxL.
    assert (Hbx : mblk (emat x) < next m) by (eapply lm_blk; [apply H|]; apply in_map, in_map, HxL).
    rewrite (kb_get [mblk A] m m'); [apply (st_val _ _ _ _ _ H x HxL); assumption|exact Hk'|exact Hbx|]. intros [E|[]]. cbn [fst ma] in E.
    assert (HN : NoDup (map mblk (map emat ((A, ok, f) :: deln n L)))).
    { eapply Permutation_NoDup; [apply Permutation_map, Permutation_map, perm_deln, Hn|]. apply H. }
    cbn in HN. inversion HN as [|? ? N1 _]; subst. apply N1. rewrite E. apply in_map, in_map, Hx.
  - eapply kb_trans; [apply H|exact Hk'|auto|]. intros b [<-|[]]. apply (st_old _ _ _ _ _ H _ (nth_error_In _ _ Hn)).
  - intros x Hx. apply (Permutation_in _ HP) in Hx. destruct Hx as [<-|Hx]; [|apply (st_old _ _ _ _ _ H); eapply in_deln, Hx]. cbn.
    destruct Hb as [->|Hb]; [apply (st_old _ _ _ _ _ H _ (nth_error_In _ _ Hn))|right; lia].
Qed.
Lemma s_setrank nA nB m0 bs D L m r k okA fA okB fB (Q : rkm -> mem K -> Prop) : st m0 bs D L m -> nth_error L nA = Some (rk_A r, okA, fA) -> nth_error L nB = Some (rk_B r, okB, fB) -> nA <> nB ->
  (forall r' m', mrows (rk_A r') = mrows (rk_A r) -> mrows (rk_B r') = mrows (rk_B r) -> mcols (rk_A r') = k -> mcols (rk_B r') = k -> rk_k r' = k ->
     st m0 bs D (setn nB (unk (rk_B r')) (setn nA (unk (rk_A r')) L)) m' -> Q r' m') -> wp TT TT (setrank_rkmatrix r k) m Q.
Proof.
  intros H HA HB Hne HQ. unfold setrank_rkmatrix. apply wp_bind. eapply s_resize; [exact H|exact HA|]. intros A m1 A1 A2 H1.
  apply wp_bind. eapply (s_resize nB _ _ _ _ _ (rk_B r) okB fB); [exact H1| |].
  { rewrite nth_setn. destruct (Nat.eqb_spec nB nA); [congruence|]. exact HB. }
  intros B m2 B1 B2 H2. cbn [wp]. apply HQ; auto.
Qed.
End Sep.
