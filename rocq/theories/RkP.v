(** * Proofs about low-rank matrices (model: Rkmatrix.v) *)
From Coq Require Import Arith Lia List Bool Ring.
From Verif Require Import Fld Prog View Spec Loop Avector AvectorP Amatrix AmatrixP AmatrixP2 Norm NormP Rkmatrix RkSpec.
Import ListNotations.

Section RkP.
Context {K : fops} (L : ring_laws K).
Add Ring KringRk : (rl_ring K L).
Implicit Types (m : mem K) (R W : addr -> Prop) (r : rkm) (x y : vec) (D : nat -> nat -> K).

Lemma rkrep_ext m r D D' : rkrep m r D -> (forall i j, i < mrows (rk_A r) -> j < mrows (rk_B r) -> D' i j = D i j) -> rkrep m r D'.
Proof. intros (A & B & HA & HB & H1 & H2 & HD) E. exists A, B. repeat split; auto. intros i j Hi Hj. rewrite E by assumption. auto. Qed.

Lemma rkrep_keeps (W : addr -> Prop) m m' r D : rkrep m r D -> keeps W m m' -> disj (inrk r) W -> rkrep m' r D.
Proof.
  intros (A & B & HA & HB & H) Hk Hd. exists A, B.
  split; [eapply mval_keeps; [exact HA|exact Hk|]; intros a Ha Hw; apply (Hd a); [left|]; assumption|].
  split; [eapply mval_keeps; [exact HB|exact Hk|]; intros a Ha Hw; apply (Hd a); [right|]; assumption|exact H].
Qed.

Lemma lowrank_S k (A B : nat -> nat -> K) i j : lowrank (S k) A B i j = (lowrank k A B i j + A i k * fconj (B j k))%F.
Proof. reflexivity. Qed.

(** A product with the first [k] terms. *)
Lemma low_vec n k (A B : nat -> nat -> K) f i :
  mvec n (lowrank (S k) A B) f i = (mvec n (lowrank k A B) f i + A i k * dot n (fun j => B j k) f)%F.
Proof.
  unfold mvec, dot. rewrite <- (sum_mul_l L), <- (sum_add L). apply sum_ext. intros j Hj. rewrite lowrank_S. ring.
Qed.
Lemma low_vec0 n (A B : nat -> nat -> K) f i : mvec n (lowrank 0 A B) f i = f0.
Proof. unfold mvec, lowrank. cbn. apply (sum_0 L). intros. ring. Qed.

Lemma lowrank_tr k (A B : nat -> nat -> K) i j : tr true (lowrank k A B) i j = lowrank k B A i j.
Proof. unfold tr, lowrank. rewrite (sum_conj L). apply sum_ext. intros nu _. rewrite (rl_conj_mul K L), (rl_conj_conj K L). ring. Qed.

Lemma wp_rk_gen R W alpha (U V : mat) (k : nat) x y AU BV f h m (Q : unit -> mem K -> Prop) :
  mval m U AU -> mval m V BV -> k <= mcols U -> k <= mcols V ->
  vval m x f -> vval m y h -> vdim y = mrows U -> vdim x = mrows V ->
  disj (inv x) (inv y) -> disj (inm U) (inv y) -> disj (inm V) (inv y) ->
  rdok R W (inm U) -> rdok R W (inm V) -> rdok R W (inv x) -> wrok W (inv y) ->
  (forall m', vval m' y (fun i => h i + alpha * mvec (vdim x) (lowrank k AU BV) f i)%F -> keeps (inv y) m m' -> Q tt m') ->
  forall body : nat -> prog K unit,
  (forall nu, nu < k -> body nu = (beta <- dotprod_avector (colv V nu) x ;; add_avector (alpha * beta)%F (colv U nu) y ;;; Ret tt ;;; Ret tt)) ->
  wp R W (for_ 0 k body) m Q.
Proof.
  intros HU HV HkU HkV Hx Hy Hdy Hdx Hxy HUy HVy HrU HrV Hrx Hwy HQ body Hbody.
  apply (wp_for (fun nu m1 => vval m1 y (fun i => h i + alpha * mvec (vdim x) (lowrank nu AU BV) f i)%F /\ keeps (inv y) m m1)).
  - split; [|apply keeps_refl]. eapply vval_ext; [exact Hy|]. intros i Hi; cbv beta. rewrite low_vec0. ring.
  - intros nu m1 [_ Hlt] [Hy1 Hk1]. cbn in Hlt. rewrite Hbody by exact Hlt.
    assert (Hx1 : vval m1 x f) by (eapply vval_keeps; eauto).
    assert (HU1 : mval m1 U AU) by (eapply mval_keeps; eauto).
    assert (HV1 : mval m1 V BV) by (eapply mval_keeps; eauto).
    apply wp_bind. eapply wp_dotprod_avector; [apply vval_colv; [exact HV1|lia]|exact Hx1|cbn; lia| |exact Hrx|].
    { intros a Ha. apply HrV. eapply inv_colv; [|exact Ha]. lia. }
    apply wp_bind. eapply wp_add_avector; [apply vval_colv; [exact HU1|lia]|exact Hy1|cbn; lia| | |exact Hwy|].
    { intros a Ha Hb. apply (HUy a); [|exact Hb]. eapply inv_colv; [|exact Ha]. lia. }
    { intros a Ha. apply HrU. eapply inv_colv; [|exact Ha]. lia. }
    intros m2 Hy2 Hk2. cbn [bind wp]. split; [|eapply keeps_trans; eauto].
    eapply vval_ext; [exact Hy2|]. intros i Hi; cbv beta. cbn [vdim colv]. rewrite low_vec.
    destruct (Nat.ltb_spec i (mrows U)); [|lia]. unfold dot. rewrite Hdx. ring.
  - intros m1 [Hy1 Hk1]. apply HQ; [|exact Hk1]. eapply vval_ext; [exact Hy1|]. reflexivity.
Qed.

Lemma wp_addeval_rk R W alpha r x y D f h m (Q : unit -> mem K -> Prop) :
  rkrep m r D -> vval m x f -> vval m y h -> vdim y = mrows (rk_A r) -> vdim x = mrows (rk_B r) ->
  disj (inv x) (inv y) -> disj (inrk r) (inv y) -> rdok R W (inrk r) -> rdok R W (inv x) -> wrok W (inv y) ->
  (forall m', vval m' y (fun i => h i + alpha * mvec (vdim x) D f i)%F -> keeps (inv y) m m' -> Q tt m') ->
  wp R W (addeval_rkmatrix_avector alpha r x y) m Q.
Proof.
  intros (A & B & HA & HB & HkA & HkB & HD) Hx Hy Hdy Hdx Hxy Hry Hrr Hrx Hwy HQ. unfold addeval_rkmatrix_avector.
  wstep. wstep. wstep. wstep.
  eapply (wp_rk_gen R W alpha (rk_A r) (rk_B r) (rk_k r) x y A B f h m); try assumption; try lia.
  - intros a Ha. apply Hry. left. exact Ha.
  - intros a Ha. apply Hry. right. exact Ha.
  - intros a Ha. apply Hrr. left. exact Ha.
  - intros a Ha. apply Hrr. right. exact Ha.
  - intros m' Hy' Hk'. apply HQ; [|exact Hk']. eapply vval_ext; [exact Hy'|]. intros i Hi; cbv beta. f_equal. f_equal.
    unfold mvec. apply sum_ext. intros j Hj. rewrite HD by lia. reflexivity.
  - intros nu Hnu. unfold init_column_avector. rewrite (proj2 (Nat.ltb_lt _ _)) by lia. rewrite (proj2 (Nat.ltb_lt _ _)) by lia. reflexivity.
Qed.

Lemma wp_addevaltrans_rk R W alpha r x y D f h m (Q : unit -> mem K -> Prop) :
  rkrep m r D -> vval m x f -> vval m y h -> vdim x = mrows (rk_A r) -> vdim y = mrows (rk_B r) ->
  disj (inv x) (inv y) -> disj (inrk r) (inv y) -> rdok R W (inrk r) -> rdok R W (inv x) -> wrok W (inv y) ->
  (forall m', vval m' y (fun i => h i + alpha * mvec (vdim x) (tr true D) f i)%F -> keeps (inv y) m m' -> Q tt m') ->
  wp R W (addevaltrans_rkmatrix_avector alpha r x y) m Q.
Proof.
  intros (A & B & HA & HB & HkA & HkB & HD) Hx Hy Hdx Hdy Hxy Hry Hrr Hrx Hwy HQ. unfold addevaltrans_rkmatrix_avector.
  wstep. wstep. wstep. wstep.
  eapply (wp_rk_gen R W alpha (rk_B r) (rk_A r) (rk_k r) x y B A f h m); try assumption; try lia.
  - intros a Ha. apply Hry. right. exact Ha.
  - intros a Ha. apply Hry. left. exact Ha.
  - intros a Ha. apply Hrr. right. exact Ha.
  - intros a Ha. apply Hrr. left. exact Ha.
  - intros m' Hy' Hk'. apply HQ; [|exact Hk']. eapply vval_ext; [exact Hy'|]. intros i Hi; cbv beta. f_equal. f_equal.
    unfold mvec. apply sum_ext. intros j Hj. rewrite <- lowrank_tr. unfold tr. rewrite HD by lia. reflexivity.
  - intros nu Hnu. unfold init_column_avector. rewrite (proj2 (Nat.ltb_lt _ _)) by lia. rewrite (proj2 (Nat.ltb_lt _ _)) by lia. reflexivity.
Qed.

Lemma wp_mvm_rk R W alpha (t : bool) r x y D f h m (Q : unit -> mem K -> Prop) :
  rkrep m r D -> vval m x f -> vval m y h ->
  vdim y = (if t then mrows (rk_B r) else mrows (rk_A r)) -> vdim x = (if t then mrows (rk_A r) else mrows (rk_B r)) ->
  disj (inv x) (inv y) -> disj (inrk r) (inv y) -> rdok R W (inrk r) -> rdok R W (inv x) -> wrok W (inv y) ->
  (forall m', vval m' y (fun i => h i + alpha * mvec (vdim x) (tr t D) f i)%F -> keeps (inv y) m m' -> Q tt m') ->
  wp R W (mvm_rkmatrix_avector alpha t r x y) m Q.
Proof.
  intros Hr Hx Hy Hdy Hdx Hxy Hry Hrr Hrx Hwy HQ. unfold mvm_rkmatrix_avector. destruct t.
  - eapply wp_addevaltrans_rk; eauto.
  - eapply wp_addeval_rk; eauto.
Qed.

Lemma rk_mvm_ok r D : mvm_ok (fun alpha t => mvm_rkmatrix_avector alpha t r) (mrows (rk_A r)) (mrows (rk_B r)) D (tr true D) (inrk r)
  (fun m => rkrep m r D).
Proof.
  constructor.
  - intros m m' W H Hk Hd. eapply rkrep_keeps; eauto.
  - intros R W alpha t x y f h m Q HI Hr Hx Hy Hdx Hdy _ _ Hxy HFy Hrx Hwy HQ.
    eapply wp_mvm_rk; eauto; try (destruct t; assumption).
    all: try (intros m' Hy' Hk'; apply HQ; [|exact Hk']; destruct t; exact Hy').
Qed.

Lemma wp_scale_rk R W alpha r D m (Q : unit -> mem K -> Prop) :
  rkrep m r D -> mwf (rk_A r) -> disj (inm (rk_A r)) (inm (rk_B r)) -> wrok W (inm (rk_A r)) ->
  (forall m', rkrep m' r (fun i j => alpha * D i j)%F -> keeps (inm (rk_A r)) m m' -> Q tt m') ->
  wp R W (scale_rkmatrix alpha r) m Q.
Proof.
  intros (A & B & HA & HB & HkA & HkB & HD) Hw Hd Hww HQ. unfold scale_rkmatrix.
  eapply wp_scale_amatrix; [exact Hw|exact HA|exact Hww|]. intros m' HA' Hk. apply HQ; [|exact Hk].
  exists (fun i nu => A i nu * alpha)%F, B. split; [exact HA'|]. split; [eapply mval_keeps; [exact HB|exact Hk|apply disj_sym, Hd]|].
  split; [exact HkA|]. split; [exact HkB|]. intros i j Hi Hj. rewrite HD by assumption. unfold lowrank.
  rewrite <- (sum_mul_l L). apply sum_ext. intros. ring.
Qed.

(** ** Storage *)
Definition TT : addr -> Prop := fun _ => True.

Lemma wp_resize_amatrix A rows cols m (Q : mat -> mem K -> Prop) :
  mown A = true -> mblk A < next m -> mwf A -> malloc m A ->
  (forall B m', mrows B = rows -> mcols B = cols -> mown B = true -> mwf B -> malloc m' B -> mblk B < next m' ->
     (mblk B = mblk A \/ next m <= mblk B) ->
     keeps (fun a => fst a = mblk A \/ next m <= fst a) m m' -> Q B m') ->
  wp TT TT (resize_amatrix A rows cols) m Q.
Proof.
  intros Ho Hb Hw Hal HQ. unfold resize_amatrix. wstep; [exact Ho|].
  destruct ((rows =? mrows A) && (cols =? mcols A)) eqn:E.
  - apply andb_true_iff in E as [E1%Nat.eqb_eq E2%Nat.eqb_eq]. cbn [wp]. apply HQ; auto. apply keeps_refl.
  - cbn [bind pfree palloc wp]. split; [exact Hb|]. split; [intros; exact I|].
    apply HQ; auto; try reflexivity.
    + apply mwf_fresh.
    + apply malloc_fresh.
    + split; [cbn; lia|]. intros a Ha. rewrite get_alloc_old by (cbn; intros E'; apply Ha; right; lia).
      rewrite get_dealloc. destruct (Nat.eqb_spec (fst a) (mblk A)); [exfalso; apply Ha; auto|reflexivity].
Qed.

Lemma malloc_keeps' (P : addr -> Prop) m m' A : malloc m A -> keeps P m m' -> (forall a, inm A a -> ~ P a) -> malloc m' A.
Proof. intros H [_ Hk] Hd i j Hi Hj. rewrite Hk; [apply H; assumption|]. apply Hd. apply inm_ma; assumption. Qed.

Definition newrk m r r' : Prop :=
  (mblk (rk_A r') = mblk (rk_A r) \/ next m <= mblk (rk_A r')) /\ (mblk (rk_B r') = mblk (rk_B r) \/ next m <= mblk (rk_B r')).

Lemma wp_resize_rk r rows cols k m (Q : rkm -> mem K -> Prop) : rkown m r ->
  (forall r' m', rkown m' r' -> mrows (rk_A r') = rows -> mrows (rk_B r') = cols -> rk_k r' = k -> newrk m r r' ->
     keeps (fun a => rkblk r a \/ next m <= fst a) m m' -> Q r' m') ->
  wp TT TT (resize_rkmatrix r rows cols k) m Q.
Proof.
  intros (OA & OB & Nb & BA & BB & WA & WB & CA & CB & AA & AB) HQ. unfold resize_rkmatrix.
  apply wp_bind. apply wp_resize_amatrix; auto. intros A m1 A1 A2 A3 A4 A5 A6 A7 A8.
  assert (AB1 : malloc m1 (rk_B r)).
  { eapply malloc_keeps'; [exact AB|exact A8|]. intros a Ha. apply inm_blk in Ha. cbv beta. lia. }
  assert (N1 : next m <= next m1) by apply A8.
  apply wp_bind. apply wp_resize_amatrix; auto; [lia|]. intros B m2 B1 B2 B3 B4 B5 B6 B7 B8. cbn [wp].
  assert (N2 : next m1 <= next m2) by apply B8.
  apply HQ; cbn; auto.
  - unfold rkown. cbn. repeat split; auto; try lia.
    eapply malloc_keeps'; [exact A5|exact B8|]. intros a Ha. apply inm_blk in Ha. cbv beta. lia.
  - split; cbn; [exact A7|lia].
  - eapply keeps_trans; eapply keeps_mono; [|exact A8| |exact B8]; cbn; unfold rkblk; intros a; lia.
Qed.

Lemma setrank_resize r k : setrank_rkmatrix (K := K) r k = resize_rkmatrix r (mrows (rk_A r)) (mrows (rk_B r)) k.
Proof. reflexivity. Qed.

(** A matrix of rank zero is the zero matrix. *)
Lemma rk_zero m r : rkown m r -> rk_k r = 0 -> rkrep m r (fun _ _ => f0).
Proof.
  intros H Hk. destruct H as (_ & _ & _ & _ & _ & _ & _ & C1 & C2 & _). exists (fun _ _ => f0), (fun _ _ => f0).
  split; [intros i j _ Hj; lia|]. split; [intros i j _ Hj; lia|]. split; [lia|]. split; [lia|].
  intros i j _ _. rewrite Hk. reflexivity.
Qed.

Lemma wp_init_rk rows cols k m (Q : rkm -> mem K -> Prop) :
  (forall r m', rkown m' r -> mrows (rk_A r) = rows -> mrows (rk_B r) = cols -> rk_k r = k ->
     (forall a, rkblk r a -> next m <= fst a < next m') -> keeps (fun a => next m <= fst a) m m' -> Q r m') ->
  wp TT TT (init_rkmatrix rows cols k) m Q.
Proof.
  intros HQ. unfold init_rkmatrix. apply wp_bind. apply wp_init_amatrix. intros A EA WA AA.
  apply wp_bind. apply wp_init_amatrix. intros B EB WB AB. cbn [wp].
  apply HQ; cbn; try (subst; reflexivity).
  - unfold rkown. cbn. repeat split; try (subst; cbn; auto; lia).
    subst A. intros i j Hi Hj. rewrite get_alloc_old by (cbn; lia). apply AA; assumption.
  - intros a [->| ->]; subst; cbn; lia.
  - split; [cbn; lia|]. intros a Ha. rewrite !get_alloc_old by (cbn; lia). reflexivity.
Qed.

Lemma keeps_fresh m m' (P : addr -> Prop) a : keeps P m m' -> get m a <> Free -> ~ P a -> get m' a = get m a.
Proof. intros [_ H] _ Hn. apply H, Hn. Qed.

Lemma rkrep_dis m m' (P : addr -> Prop) r D : rkrep m r D -> keeps P m m' -> (forall a, rkblk r a -> ~ P a) -> rkrep m' r D.
Proof.
  intros H Hk Hd. eapply rkrep_keeps; [exact H|exact Hk|]. intros a Ha. apply Hd.
  destruct Ha as [Ha|Ha]; apply inm_blk in Ha; [left|right]; exact Ha.
Qed.

Lemma wp_copy_rk (t : bool) a b D m (Q : rkm -> mem K -> Prop) :
  rkrep m a D -> rkown m b -> mblk (rk_A a) < next m -> mblk (rk_B a) < next m -> (forall p, rkblk a p -> ~ rkblk b p) ->
  mrows (rk_A b) = (if t then mrows (rk_B a) else mrows (rk_A a)) -> mrows (rk_B b) = (if t then mrows (rk_A a) else mrows (rk_B a)) ->
  (forall b' m', rkrep m' b' (tr t D) -> rkrep m' a D -> rkown m' b' -> rk_k b' = rk_k a ->
     mrows (rk_A b') = mrows (rk_A b) -> mrows (rk_B b') = mrows (rk_B b) -> newrk m b b' ->
     keeps (fun p => rkblk b p \/ next m <= fst p) m m' -> Q b' m') ->
  wp TT TT (copy_rkmatrix t a b) m Q.
Proof.
  intros Ha Hb HaA HaB Hd HrA HrB HQ.
  assert (Hset : forall (k : rkm -> prog K rkm), (forall b' m1, rkown m1 b' -> rk_k b' = rk_k a ->
      mrows (rk_A b') = mrows (rk_A b) -> mrows (rk_B b') = mrows (rk_B b) -> newrk m b b' ->
      keeps (fun p => rkblk b p \/ next m <= fst p) m m1 -> wp TT TT (k b') m1 Q) ->
      wp TT TT (bind (if rk_k b =? rk_k a then Ret b else setrank_rkmatrix b (rk_k a)) k) m Q).
  { intros k Hk. destruct (Nat.eqb_spec (rk_k b) (rk_k a)) as [E|E].
    - cbn [bind]. apply Hk; auto. { split; auto. } apply keeps_refl.
    - apply wp_bind. rewrite setrank_resize. apply wp_resize_rk; [exact Hb|]. intros r' m1 O1 R1 R2 R3 R4 K1. apply Hk; auto. }
  assert (Hfin : forall b' m1, rkown m1 b' -> rk_k b' = rk_k a ->
      mrows (rk_A b') = mrows (rk_A b) -> mrows (rk_B b') = mrows (rk_B b) -> newrk m b b' ->
      keeps (fun p => rkblk b p \/ next m <= fst p) m m1 ->
      let U := if t then rk_B b' else rk_A b' in let V := if t then rk_A b' else rk_B b' in
      wp TT TT (copy_amatrix false (rk_A a) U ;;; copy_amatrix false (rk_B a) V ;;; Ret b') m1 Q).
  { intros b' m1 O1 Ek R1 R2 [N1 N2] K1 U V.
    assert (Ha1 : rkrep m1 a D).
    { eapply rkrep_dis; [exact Ha|exact K1|]. intros p Hp [H|H]; [exact (Hd p Hp H)|]. destruct Hp; lia. }
    assert (Da : forall p, rkblk a p -> ~ rkblk b' p).
    { intros p Hp Hq. specialize (Hd p Hp). unfold rkblk in *. destruct Hp as [Hp|Hp], Hq as [Hq|Hq]; lia. }
    assert (Ha1' := Ha1). destruct Ha1' as (A & B & HA & HB & CA & CB & HD).
    assert (O1' := O1). destruct O1' as (OA & OB & Nb & BA & BB & WA & WB & C1 & C2 & AA & AB).
    assert (HU : mwf U /\ malloc m1 U /\ mrows U = mrows (rk_A a) /\ mcols U = rk_k a /\ forall p, inm U p -> rkblk b' p).
    { unfold U. destruct t; repeat split; auto; try lia; intros p Hp; apply inm_blk in Hp; [right|left]; exact Hp. }
    assert (HV : mwf V /\ malloc m1 V /\ mrows V = mrows (rk_B a) /\ mcols V = rk_k a /\ forall p, inm V p -> rkblk b' p).
    { unfold V. destruct t; repeat split; auto; try lia; intros p Hp; apply inm_blk in Hp; [left|right]; exact Hp. }
    assert (HUV : mblk U <> mblk V) by (unfold U, V; destruct t; auto).
    destruct HU as (U1 & U2 & U3 & U4 & U5). destruct HV as (V1 & V2 & V3 & V4 & V5).
    apply wp_bind. eapply wp_copy_amatrix; [exact U1|exact HA|exact U2| | | |lia|lia|]; [| intros p _; left; exact I|intros p _; exact I|].
    { intros p Hp Hq. apply (Da p); [left; exact (inm_blk _ _ Hp)|apply U5, Hq]. }
    intros m2 HU2 K2. cbn [tr] in HU2.
    assert (HB2 : mval m2 (rk_B a) B).
    { eapply mval_keeps; [exact HB|exact K2|]. intros p Hp Hq. apply (Da p); [right; exact (inm_blk _ _ Hp)|apply U5, Hq]. }
    assert (V2' : malloc m2 V) by (eapply malloc_keeps'; [exact V2|exact K2|]; intros p Hp Hq; apply inm_blk in Hp, Hq; congruence).
    apply wp_bind. eapply wp_copy_amatrix; [exact V1|exact HB2|exact V2'| | | |lia|lia|]; [| intros p _; left; exact I|intros p _; exact I|].
    { intros p Hp Hq. apply (Da p); [right; exact (inm_blk _ _ Hp)|apply V5, Hq]. }
    intros m3 HV3 K3. cbn [tr] in HV3. cbn [wp].
    assert (HU3 : mval m3 U A).
    { eapply mval_keeps; [exact HU2|exact K3|]. intros p Hp Hq. apply inm_blk in Hp, Hq. congruence. }
    assert (K13 : keeps (rkblk b') m1 m3).
    { eapply keeps_trans; eapply keeps_mono; [|exact K2| |exact K3]; cbn; auto. }
    assert (KK : keeps (fun p => rkblk b p \/ next m <= fst p) m m3).
    { eapply keeps_trans; [exact K1|]. eapply keeps_mono; [|exact K13]. cbn. intros p Hp. unfold rkblk in *. lia. }
    apply HQ; auto.
    - unfold U, V in *. destruct t.
      + exists B, A. split; [exact HV3|]. split; [exact HU3|]. split; [lia|]. split; [lia|].
        intros i j Hi Hj. rewrite Ek, <- lowrank_tr. unfold tr. rewrite HD by lia. reflexivity.
      + exists A, B. split; [exact HU3|]. split; [exact HV3|]. split; [lia|]. split; [lia|].
        intros i j Hi Hj. rewrite Ek. cbn [tr]. rewrite HD by lia. reflexivity.
    - eapply rkrep_dis; [exact Ha1|exact K13|exact Da].
    - assert (N3 : next m1 <= next m3) by apply K13. unfold rkown. repeat split; auto; try lia.
      + unfold U, V in *. destruct t; [eapply mval_alloc; exact HV3|eapply mval_alloc; exact HU3].
      + unfold U, V in *. destruct t; [eapply mval_alloc; exact HU3|eapply mval_alloc; exact HV3].
    - split; assumption. }
  unfold copy_rkmatrix. destruct t.
  - wstep. wstep. apply Hset. intros b' m1 O1 E1 E2 E3 E4 E5. exact (Hfin b' m1 O1 E1 E2 E3 E4 E5).
  - wstep. wstep. apply Hset. intros b' m1 O1 E1 E2 E3 E4 E5. exact (Hfin b' m1 O1 E1 E2 E3 E4 E5).
Qed.

Lemma wp_clone_rk a D m (Q : rkm -> mem K -> Prop) :
  rkrep m a D -> mblk (rk_A a) < next m -> mblk (rk_B a) < next m ->
  (forall b m', rkrep m' b D -> rkrep m' a D -> rkown m' b -> rk_k b = rk_k a ->
     mrows (rk_A b) = mrows (rk_A a) -> mrows (rk_B b) = mrows (rk_B a) -> (forall p, rkblk b p -> next m <= fst p < next m') ->
     keeps (fun p => next m <= fst p) m m' -> Q b m') ->
  wp TT TT (clone_rkmatrix a) m Q.
Proof.
  intros Ha HaA HaB HQ. unfold clone_rkmatrix. apply wp_bind. apply wp_init_rk. intros r m1 O1 R1 R2 R3 F1 K1.
  assert (N1 : next m <= next m1) by apply K1.
  eapply (wp_copy_rk false); [eapply rkrep_dis; [exact Ha|exact K1|]|exact O1|lia|lia| |lia|lia|].
  - intros p [Hp|Hp]; lia.
  - intros p Hp Hq. apply F1 in Hq. destruct Hp; lia.
  - intros b' m' Hb Ha' Ho Hk E1 E2 [N2 N3] K2. destruct (proj1 O1).
    assert (F2 : forall p, rkblk b' p -> next m <= fst p < next m').
    { assert (O := Ho). destruct O as (_ & _ & _ & B1 & B2 & _). intros p Hp. pose proof (F1 (mblk (rk_A r), 0) (or_introl eq_refl)).
      pose proof (F1 (mblk (rk_B r), 0) (or_intror eq_refl)). cbn in *. unfold rkblk in Hp. lia. }
    apply HQ; auto; try lia.
    eapply keeps_trans; [exact K1|]. eapply keeps_mono; [|exact K2]. cbn. intros p [Hp|Hp]; [apply F1 in Hp|]; lia.
Qed.

Lemma rkrep_sub m r D rows roff cols coff :
  rkrep m r D -> roff + rows <= mrows (rk_A r) -> coff + cols <= mrows (rk_B r) ->
  rkrep m (Rk (subm (rk_A r) roff rows 0 (rk_k r)) (subm (rk_B r) coff cols 0 (rk_k r)) (rk_k r)) (fun i j => D (roff + i) (coff + j)).
Proof.
  intros (A & B & HA & HB & CA & CB & HD) Hr Hc.
  exists (fun i j => A (roff + i) (0 + j)), (fun i j => B (coff + i) (0 + j)). cbn [rk_A rk_B rk_k].
  split; [apply mval_subm; [exact HA|exact Hr|lia]|]. split; [apply mval_subm; [exact HB|exact Hc|lia]|].
  split; [reflexivity|]. split; [reflexivity|]. cbn. intros i j Hi Hj. rewrite HD by lia. reflexivity.
Qed.
End RkP.
