(** * Programs on lists of owned matrices: decompositions *)
From Coq Require Import Arith Lia List Bool Permutation Ring.
From Verif Require Import Fld Ord Prog Arr View Loop Line Spec Cluster Block Avector Amatrix AvectorP AmatrixP AmatrixP2 Rkmatrix RkSpec RkP Factor FactorSpec FactorP FactorP2 FactorP3 LrP
  Chol CholSpec Qr QrSpec QrP QrP2 QrP3 QrP4 QrP7 QrP8 QrP10 CbmSpec CbmP CopSpec OrthoP SepP SepP2 Htrunc HtSpec.
Import ListNotations.

(** With all permissions the weakest precondition is what the execution delivers. *)
Lemma run_wp {K : fops} {A} (p : prog K A) : forall (W : addr -> Prop) (m : mem K) (Q : A -> mem K -> Prop), (forall a, W a) -> (exists a m', run p m = Ok (a, m') /\ Q a m') -> wp TT W p m Q.
Proof.
  induction p as [a|e|a k IH|a v k IH|n k IH|b k IH]; intros W m Q HW (x & m' & HR & HQ); cbn in HR |- *.
  - injection HR as <- <-. exact HQ.
  - discriminate.
  - split; [left; exact I|]. destruct (get m a) as [| |v]; try discriminate. exists v. split; [reflexivity|]. apply IH; eauto.
  - split; [apply HW|]. destruct (get m a) as [| |w] eqn:E; try discriminate; (split; [congruence|]); apply IH; eauto.
  - apply IH; [auto|eauto].
  - destruct (Nat.ltb_spec b (next m)); [|discriminate]. split; [assumption|]. split; [auto|]. apply IH; eauto.
Qed.
Lemma ends_wp {K : fops} {A} (p : prog K A) (m : mem K) (Q : A -> mem K -> Prop) : ends p m Q -> wp TT TT p m Q.
Proof. intros H. apply run_wp; [intros a; exact I|exact H]. Qed.

Section Sep.
Context {K : fops} (L : field_laws K) (O : qops K) (H0 : qlaws O).
Notation RL := (fl_ring K L).
Add Ring KringSe3 : (rl_ring K (fl_ring K L)).
Implicit Types (m : mem K) (D : nat -> Prop) (bs : list nat) (l : list (ent (K := K))) (f g F : nat -> nat -> K).
Notation up F := (tripart false false F).

Lemma setn_swap {A} n n' (x y : A) k : n <> n' -> setn n x (setn n' y k) = setn n' y (setn n x k).
Proof. revert n n'. induction k as [|z k IH]; intros [|n] [|n'] H; cbn; try reflexivity; [congruence|]. rewrite IH by congruence. reflexivity. Qed.
Lemma nth_lt {A} (k : list A) n x : nth_error k n = Some x -> n <? length k = true.
Proof. intros H. apply Nat.ltb_lt, nth_error_Some. congruence. Qed.

Lemma s_qr nA nt m0 bs D l m A f tau ok g (Q : vec -> mem K -> Prop) : st m0 bs D l m -> nth_error l nA = Some (full A f) -> nth_error l nt = Some (vm tau, ok, g) -> nA <> nt ->
  vdim tau = Nat.min (mrows A) (mcols A) ->
  (forall F t m', qrfac O (mrows A) (mcols A) f F t -> st m0 bs D (setn nt (full (vm tau) (fun i _ => t i)) (setn nA (full A F) l)) m' -> Q tau m') ->
  wp TT TT (qrdecomp_amatrix O A tau) m Q.
Proof.
  intros H HA Ht Hne Ed HQ. destruct (st_own _ _ _ _ _ _ _ _ _ H HA) as (_ & _ & WA & AA). destruct (st_own _ _ _ _ _ _ _ _ _ H Ht) as (_ & _ & _ & AT).
  pose proof (st_neq _ _ _ _ _ _ _ _ _ H HA Ht Hne) as Hb. cbn in Hb.
  assert (Hd : disj (inm A) (inv tau)). { intros a Ha Ha'. apply inm_vm in Ha'. apply inm_blk in Ha, Ha'. cbn in Ha'. congruence. }
  eapply (wp_qrdecomp L O H0) with (f := f); [exact WA|eapply st_mval; eassumption|apply malloc_vm, AT|rewrite Ed; lia|exact Hd|apply TTw|apply TTw|].
  intros F t E m' HI HF Htv Hk. destruct (qrinv_final L O H0 _ _ _ _ _ _ HI) as (U1 & U2 & U3). rewrite <- Ed in Htv, Hk.
  assert (Hk' : keeps (fun a => inm A a \/ inm (vm tau) a) m m').
  { eapply keeps_mono; [|exact Hk]. intros a [Ha|(i & Hi & ->)]; [left; exact Ha|right; apply inm_vm; exists i; auto]. }
  apply (HQ F t m').
  { split; [exact U1|]. intros HE i j Hi Hj. rewrite U2 by assumption. rewrite (HE (mrows A) (fun i => E i j) (U3 j Hj) i Hi). ring. }
  assert (Htv' : mval m' (vm tau) (fun i _ => t i)). { apply vval_vm. exact Htv. }
  eapply st_step; [exact H|exact Hk'| | |].
  - intros a [Ha|Ha]; [exists (full A f)|exists (vm tau, ok, g)]; (split; [eapply nth_error_In; eassumption|exact Ha]).
  - rewrite !map_setn. cbn [emat full fst]. rewrite (setn_same nA A); [|exact (map_nth_error emat nA l HA)]. apply setn_same. exact (map_nth_error emat nt l Ht).
  - intros e He. destruct (in_setn _ _ _ _ He) as [->|(i & Hi & He1)].
    + right. split; [eapply mval_alloc, Htv'|apply full_mval, Htv'].
    + rewrite nth_setn in He1. destruct (Nat.eqb_spec i nA) as [Ei|Hi2].
      * rewrite (nth_lt _ _ _ HA) in He1. cbn [andb] in He1. injection He1 as <-. right. split; [eapply mval_alloc, HF|apply full_mval, HF].
      * cbn [andb] in He1. left. split; [eapply nth_error_In, He1|]. intros a Ha [Ha'|Ha']; apply inm_blk in Ha, Ha'.
        -- pose proof (st_neq _ _ _ _ _ _ _ _ _ H He1 HA Hi2) as X. cbn in X. congruence.
        -- pose proof (st_neq _ _ _ _ _ _ _ _ _ H He1 Ht Hi) as X. cbn in X, Ha'. congruence.
Qed.

(** [X^* <- R X^*] for the upper triangular part of a part of [A] *)
Lemma s_trieval n m0 bs D l m A f X g (Q : unit -> mem K -> Prop) : st m0 bs D l m -> nth_error l n = Some (full X g) -> mval m A f -> mblk A <> mblk X ->
  mrows A <= mcols X -> mcols A <= mcols X ->
  (forall g' m', (forall i k, i < mrows A -> k < mrows X -> fconj (g' k i) = sum (mcols A) (fun p => up f i p * fconj (g k p))%F) ->
     (forall i k, mrows A <= i -> i < mcols X -> k < mrows X -> g' k i = g k i) -> st m0 bs D (setn n (full X g') l) m' -> Q tt m') ->
  wp TT TT (triangulareval_amatrix false false false A true X) m Q.
Proof.
  intros H Hn HA Hne E1 E2 HQ. destruct (st_own _ _ _ _ _ _ _ _ _ H Hn) as (_ & _ & W & _).
  eapply (wp_triangulareval_amatrix RL TT TT false false false A true X f g); [exact W|apply mval_pval, HA|eapply st_mval; eassumption| |apply TTr|apply TTw|exact E1|exact E2|].
  { intros a Ha Hb. apply inp_inm in Ha. eapply (blk_disj A X); eassumption. }
  intros g' m' HG1 HG2 Hv Hk. apply (HQ g').
  - intros i k Hi Hk'. apply (HG1 i k Hi Hk').
  - intros i k Hi Hi2 Hk'. pose proof (HG2 i k Hi Hi2 Hk') as HE. cbn in HE. rewrite <- (rl_conj_conj K RL (g' k i)), HE. apply (rl_conj_conj K RL).
  - eapply st_writef; eassumption.
Qed.
(** [C += R_A R_B^*] for upper triangular parts *)
Lemma s_triaddmul n m0 bs D l m A f B g C h (Q : unit -> mem K -> Prop) : st m0 bs D l m -> nth_error l n = Some (full C h) -> mval m A f -> mval m B g -> mblk A <> mblk C -> mblk B <> mblk C ->
  mrows C = mrows A -> mcols A = mcols B -> mcols C = mrows B ->
  (forall m', st m0 bs D (setn n (full C (fun i k => h i k + f1 * sum (mcols A) (fun p => up f i p * fconj (up g k p)))%F) l) m' -> Q tt m') ->
  wp TT TT (triangularaddmul_amatrix f1 false false A false true B C) m Q.
Proof.
  intros H Hn HA HB NA NB E1 E2 E3 HQ. destruct (st_own _ _ _ _ _ _ _ _ _ H Hn) as (_ & _ & W & _).
  eapply (wp_triangularaddmul_amatrix RL TT TT f1 false false A false true B C f g h); [exact W|apply mval_pval, HA|apply mval_pval, HB|eapply st_mval; eassumption| | |apply TTr|apply TTr|apply TTw|exact E1|exact E2|exact E3|].
  { intros a Ha Hb. apply inp_inm in Ha. eapply (blk_disj A C); eassumption. }
  { intros a Ha Hb. apply inp_inm in Ha. eapply (blk_disj B C); eassumption. }
  intros m' Hv Hk. apply HQ. eapply st_writef; eassumption.
Qed.
(** [X <- Q X] *)
Lemma s_qreval n m0 bs D l m A F tau t X g (Q : unit -> mem K -> Prop) : st m0 bs D l m -> nth_error l n = Some (full X g) -> mval m A F -> vval m tau t -> mblk A <> mblk X -> vblk tau <> mblk X ->
  vdim tau = Nat.min (mrows A) (mcols A) -> mrows X = mrows A ->
  (forall m', st m0 bs D (setn n (full X (mmul (mrows A) (qmat (mrows A) F t (Nat.min (mrows A) (mcols A))) g)) l) m' -> Q tt m') ->
  wp TT TT (qreval_amatrix false A tau X) m Q.
Proof.
  intros H Hn HA Ht NA NT Ed Er HQ. destruct (st_own _ _ _ _ _ _ _ _ _ H Hn) as (_ & _ & W & _).
  eapply (wp_qreval_mat L TT TT false A tau X F t g); [exact W|apply mval_pval, HA| |eapply st_mval; eassumption|lia| |apply vm_disj, NT|apply TTr|apply TTr|apply TTw|].
  { intros i Hi. apply Ht. lia. }
  { intros a Ha Hb. apply inp_inm in Ha. eapply (blk_disj A X); eassumption. }
  intros m' Hv Hk. apply HQ. eapply st_writef; [exact H|exact Hn|exact Hk|]. eapply mval_tr; [exact Hv|]. intros i j Hi Hj.
  rewrite Ed, Nat.min_id. unfold hitm, hit. rewrite <- Er at 4. apply Nat.ltb_lt in Hi. rewrite Hi. reflexivity.
Qed.
Lemma s_copyupper n m0 bs D l m A f B ok g (Q : unit -> mem K -> Prop) : st m0 bs D l m -> nth_error l n = Some (B, ok, g) -> mval m A f -> mblk A <> mblk B ->
  mcols B <= mcols A -> mrows B <= mrows A -> (forall m', st m0 bs D (setn n (full B (up f)) l) m' -> Q tt m') -> wp TT TT (copy_upper_amatrix A false B) m Q.
Proof.
  intros H Hn HA Hne E1 E2 HQ. destruct (st_own _ _ _ _ _ _ _ _ _ H Hn) as (_ & _ & W & A1).
  eapply (wp_copy_upper_fresh TT TT A B f); [exact W|exact HA|exact A1|apply blk_disj, Hne|apply TTr|apply TTw|exact E1|exact E2|]. intros m' Hv Hk. apply HQ. eapply st_writef; eassumption.
Qed.

(** ** The singular value decomposition *)
Context (orth : Prop) (good : nat -> (nat -> K) -> Prop) (dom : nat -> nat -> Prop) (svd : mat -> vec -> mat -> mat -> prog K unit) (Hsvd : svd_ok orth good dom svd).

Lemma s_svd_of nc m0 bs D l m c C ok fc f (Q : mat * mat * vec -> mem K -> Prop) : st m0 bs D l m -> nth_error l nc = Some (C, ok, fc) ->
  (forall a, inm c a -> inm C a) -> mblk c = mblk C -> mwf c -> mval m c f -> dom (mrows c) (mcols c) ->
  (forall u vt sigma U s V m', let k := Nat.min (mrows c) (mcols c) in
     svdspec orth good (mrows c) (mcols c) f U s V -> mrows u = mrows c -> mcols u = k -> mrows vt = k -> mcols vt = mcols c -> vdim sigma = k ->
     st m0 bs D (full (vm sigma) (fun i _ => s i) :: full vt V :: full u U :: setn nc (unk C) l) m' -> Q (u, vt, sigma) m') ->
  wp TT TT (svd_of svd c) m Q.
Proof.
  intros H Hn HI Eb Hw Hf Hdom HQ. unfold svd_of. cbv zeta. pose proof (st_own _ _ _ _ _ _ _ _ _ H Hn) as (_ & CB & _ & _).
  (* the three allocations *)
  apply wp_bind. eapply wp_init_kb; [apply H|]. intros u m1 Eu Hl1 K1.
  assert (S1 : st m0 bs D (unk u :: l) m1).
  { assert (Hnx : next m0 <= next m) by (eapply kb_next; apply H). constructor; [exact Hl1| | |].
    - intros e [<-|He]; [intros i j _ _ []|]. intros i j Hi Hj Hok. assert (Hb : mblk (emat e) < next m) by (eapply lm_blk; [apply H|]; apply in_map, in_map, He).
      rewrite (kb_get [] m m1); [apply (st_val _ _ _ _ _ H e He); assumption|exact K1|exact Hb|intros []].
    - eapply kb_trans; [apply H|exact K1|auto|]. intros b [].
    - intros e [<-|He]; [right; subst u; exact Hnx|apply (st_old _ _ _ _ _ H e He)]. }
  assert (F1 : mval m1 c f) by (eapply mval_kb; [exact Hf|exact K1|rewrite Eb; exact CB|intros []]).
  pose proof (st_own _ _ _ _ _ (S nc) C ok fc S1 Hn) as (_ & CB1 & _ & _).
  apply wp_bind. eapply wp_init_kb; [apply S1|]. intros vt m2 Ev Hl2 K2.
  assert (S2 : st m0 bs D (unk vt :: unk u :: l) m2).
  { assert (Hnx : next m0 <= next m1) by (eapply kb_next; apply S1). constructor; [exact Hl2| | |].
    - intros e [<-|He]; [intros i j _ _ []|]. intros i j Hi Hj Hok. assert (Hb : mblk (emat e) < next m1) by (eapply lm_blk; [apply S1|]; apply in_map, in_map, He).
      rewrite (kb_get [] m1 m2); [apply (st_val _ _ _ _ _ S1 e He); assumption|exact K2|exact Hb|intros []].
    - eapply kb_trans; [apply S1|exact K2|auto|]. intros b [].
    - intros e [<-|He]; [right; subst vt; exact Hnx|apply (st_old _ _ _ _ _ S1 e He)]. }
  assert (F2 : mval m2 c f) by (eapply mval_kb; [exact F1|exact K2|rewrite Eb; exact CB1|intros []]).
  pose proof (st_own _ _ _ _ _ (S (S nc)) C ok fc S2 Hn) as (_ & CB2 & _ & _).
  apply wp_bind. eapply wp_initv_lm; [apply S2|]. intros sigma m3 Es Hl3 K3.
  assert (S3 : st m0 bs D (unk (vm sigma) :: unk vt :: unk u :: l) m3).
  { assert (Hnx : next m0 <= next m2) by (eapply kb_next; apply S2). constructor; [exact Hl3| | |].
    - intros e [<-|He]; [intros i j _ _ []|]. intros i j Hi Hj Hok. assert (Hb : mblk (emat e) < next m2) by (eapply lm_blk; [apply S2|]; apply in_map, in_map, He).
      rewrite (kb_get [] m2 m3); [apply (st_val _ _ _ _ _ S2 e He); assumption|exact K3|exact Hb|intros []].
    - eapply kb_trans; [apply S2|exact K3|auto|]. intros b [].
    - intros e [<-|He]; [right; subst sigma; exact Hnx|apply (st_old _ _ _ _ _ S2 e He)]. }
  assert (F3 : mval m3 c f) by (eapply mval_kb; [exact F2|exact K3|rewrite Eb; exact CB2|intros []]).
  clear Hl1 Hl2 Hl3 K1 K2 K3 S1 S2 F1 F2 CB CB1 CB2 Hf H.
  set (l3 := unk (vm sigma) :: unk vt :: unk u :: l) in *.
  assert (N0 : nth_error l3 0 = Some (unk (vm sigma))) by reflexivity. assert (N1 : nth_error l3 1 = Some (unk vt)) by reflexivity. assert (N2 : nth_error l3 2 = Some (unk u)) by reflexivity.
  assert (N3 : nth_error l3 (S (S (S nc))) = Some (C, ok, fc)) by exact Hn.
  destruct (st_own _ _ _ _ _ _ _ _ _ S3 N0) as (_ & _ & _ & As). destruct (st_own _ _ _ _ _ _ _ _ _ S3 N1) as (_ & _ & Wv & Av). destruct (st_own _ _ _ _ _ _ _ _ _ S3 N2) as (_ & _ & Wu & Au).
  destruct (st_own _ _ _ _ _ _ _ _ _ S3 N3) as (_ & _ & _ & AC).
  pose proof (st_neq _ _ _ _ _ 0 1 _ _ S3 N0 N1 ltac:(lia)) as X01. pose proof (st_neq _ _ _ _ _ 0 2 _ _ S3 N0 N2 ltac:(lia)) as X02. pose proof (st_neq _ _ _ _ _ 1 2 _ _ S3 N1 N2 ltac:(lia)) as X12.
  pose proof (st_neq _ _ _ _ _ 0 (S (S (S nc))) _ _ S3 N0 N3 ltac:(lia)) as X03. pose proof (st_neq _ _ _ _ _ 1 (S (S (S nc))) _ _ S3 N1 N3 ltac:(lia)) as X13. pose proof (st_neq _ _ _ _ _ 2 (S (S (S nc))) _ _ S3 N2 N3 ltac:(lia)) as X23.
  cbn in X01, X02, X12, X03, X13, X23.
  assert (Eur : mrows u = mrows c) by (subst u; reflexivity). assert (Euc : mcols u = Nat.min (mrows c) (mcols c)) by (subst u; reflexivity).
  assert (Evr : mrows vt = Nat.min (mrows c) (mcols c)) by (subst vt; reflexivity). assert (Evc : mcols vt = mcols c) by (subst vt; reflexivity).
  assert (Esd : vdim sigma = Nat.min (mrows c) (mcols c)) by (subst sigma; reflexivity). clear Eu Ev Es.
  apply wp_bind. eapply wp_conseq.
  - apply ends_wp. apply (Hsvd c sigma u vt f m3); try assumption.
    + apply malloc_vm, As.
    + constructor; [cbn; rewrite Eb; intros [E|[E|[E|[]]]]; congruence|]. constructor; [cbn; intros [E|[E|[]]]; congruence|]. constructor; [cbn; intros [E|[]]; congruence|]. constructor; [intros []|constructor].
  - cbv beta. intros [] m4 (f' & U & s & V & HS & Hc' & Hs' & Hu' & Hv' & Hk). cbn [wp]. apply (HQ u vt sigma U s V m4); try assumption.
    assert (Hs2 : mval m4 (vm sigma) (fun i _ => s i)) by (apply vval_vm, Hs').
    assert (HC' : malloc m4 C).
    { intros i j Hi Hj. destruct (inm_dec c (ma C i j)) as [(p & q & Hp & Hq & ->)|Hno]; [rewrite (Hc' p q Hp Hq); discriminate|].
      rewrite (proj2 Hk); [apply AC; assumption|]. intros [Y|[Y|[Y|Y]]]; [contradiction|apply inm_vm in Y; apply inm_blk in Y|apply inm_blk in Y|apply inm_blk in Y]; cbn in Y; congruence. }
    eapply st_step; [exact S3|exact Hk| | |].
    + intros a [Ha|[Ha|[Ha|Ha]]].
      * exists (C, ok, fc). split; [eapply nth_error_In, N3|apply HI, Ha].
      * exists (unk (vm sigma)). split; [eapply nth_error_In, N0|apply inm_vm, Ha].
      * exists (unk u). split; [eapply nth_error_In, N2|exact Ha].
      * exists (unk vt). split; [eapply nth_error_In, N1|exact Ha].
    + unfold l3. cbn [map emat full unk fst]. do 3 f_equal. rewrite map_setn. apply setn_same. exact (map_nth_error emat nc l Hn).
    + intros e [<-|[<-|[<-|He]]].
      * right. split; [eapply mval_alloc, Hs2|apply full_mval, Hs2].
      * right. split; [eapply mval_alloc, Hv'|apply full_mval, Hv'].
      * right. split; [eapply mval_alloc, Hu'|apply full_mval, Hu'].
      * destruct (in_setn _ _ _ _ He) as [->|(i & Hi & He1)]; [right; split; [exact HC'|intros i j _ _ []]|left].
        assert (Hl3 : nth_error l3 (S (S (S i))) = Some e) by exact He1. split; [eapply nth_error_In, Hl3|].
        pose proof (st_neq _ _ _ _ _ (S (S (S i))) 0 _ _ S3 Hl3 N0 ltac:(lia)) as Y0. pose proof (st_neq _ _ _ _ _ (S (S (S i))) 1 _ _ S3 Hl3 N1 ltac:(lia)) as Y1.
        pose proof (st_neq _ _ _ _ _ (S (S (S i))) 2 _ _ S3 Hl3 N2 ltac:(lia)) as Y2. pose proof (st_neq _ _ _ _ _ (S (S (S i))) (S (S (S nc))) _ _ S3 Hl3 N3 ltac:(lia)) as Y3. cbn in Y0, Y1, Y2, Y3.
        intros a Ha [Y|[Y|[Y|Y]]]; [|apply inm_vm in Y| |]; apply inm_blk in Ha, Y; cbn in Y; congruence.
Qed.
End Sep.
