(** * Orthogonalisation of cluster bases: storage *)
From Coq Require Import Arith Lia List Bool Permutation Ring.
From Verif Require Import Fld Ord Prog Arr View Loop Line Spec Cluster Block Avector Amatrix AvectorP AmatrixP AmatrixP2 RkP Factor FactorSpec FactorP FactorP2 FactorP3 LrP
  Chol CholSpec Qr QrSpec QrP QrP2 QrP3 QrP4 QrP7 QrP8 QrP10 Hmatrix HmSpec HmP Clusterbasis CbSpec CbP CbP2 Cbmgr CbmSpec CbmP CbmP2 Clusterop CopSpec.
Import ListNotations.

(** ** Permutations of lists of matrices *)
Definition mat_dec (A B : mat) : {A = B} + {A <> B}.
Proof. repeat decide equality. Defined.
Lemma cnt_cons (a : mat) l x : count_occ mat_dec (a :: l) x = (if mat_dec a x then 1 else 0) + count_occ mat_dec l x.
Proof. cbn. destruct (mat_dec a x); reflexivity. Qed.
Ltac perm := apply (Permutation_count_occ mat_dec); intros ?x; repeat (rewrite flat_map_app || rewrite count_occ_app || rewrite cnt_cons || (cbn [flat_map app omats comats])); rewrite ?count_occ_nil; try lia.

Section P.
Context {K : fops} {G : ofops}.
Implicit Types (m : mem K) (cb s : cbasis G) (D : nat -> Prop) (Ls : list mat) (bs : list nat).

(** ** Changes restricted to some blocks *)
Definition kb bs (m m' : mem K) : Prop := keeps (fun a => In (fst a) bs \/ next m <= fst a) m m'.
Lemma kb_refl bs m : kb bs m m. Proof. apply keeps_refl. Qed.
Lemma kb_next bs m m' : kb bs m m' -> next m <= next m'. Proof. intros H. apply H. Qed.
Lemma kb_trans b1 b2 bs m m1 m2 : kb b1 m m1 -> kb b2 m1 m2 -> (forall b, In b b1 -> In b bs) -> (forall b, In b b2 -> In b bs \/ next m <= b) -> kb bs m m2.
Proof.
  intros H1 H2 I1 I2. pose proof (kb_next _ _ _ H1). eapply keeps_trans; (eapply keeps_mono; [|eassumption]); cbv beta; intros a [Ha|Ha].
  - left. apply I1, Ha.
  - right. exact Ha.
  - apply I2, Ha.
  - right. lia.
Qed.
Lemma kb_mono b1 bs m m' : kb b1 m m' -> (forall b, In b b1 -> In b bs \/ next m <= b) -> kb bs m m'.
Proof. intros H HI. eapply keeps_mono; [|exact H]. cbv beta. intros a [Ha|Ha]; [apply HI, Ha|right; exact Ha]. Qed.
Lemma kb_get bs m m' a : kb bs m m' -> fst a < next m -> ~ In (fst a) bs -> get m' a = get m a.
Proof. intros H Ha Hn. apply (proj2 H). intros [Hc|Hc]; [contradiction|lia]. Qed.
Lemma kb_of (W : addr -> Prop) bs m m' : keeps W m m' -> (forall a, W a -> In (fst a) bs \/ next m <= fst a) -> kb bs m m'.
Proof. intros H HI. eapply keeps_mono; [|exact H]. exact HI. Qed.
Lemma kb_inm A m m' : keeps (inm A) m m' -> kb [mblk A] m m'.
Proof. intros H. eapply kb_of; [exact H|]. intros a Ha. apply inm_blk in Ha. left. left. symmetry. exact Ha. Qed.
Lemma mval_kb bs m m' A f : mval m A f -> kb bs m m' -> mblk A < next m -> ~ In (mblk A) bs -> mval m' A f.
Proof. intros H Hk Hb Hn i j Hi Hj. rewrite (kb_get bs m m'); [apply H; assumption|exact Hk|exact Hb|exact Hn]. Qed.
Lemma malloc_kb bs m m' A : malloc m A -> kb bs m m' -> mblk A < next m -> ~ In (mblk A) bs -> malloc m' A.
Proof. intros H Hk Hb Hn i j Hi Hj. rewrite (kb_get bs m m'); [apply H; assumption|exact Hk|exact Hb|exact Hn]. Qed.
Lemma mfun_kb bs m m' A : kb bs m m' -> mblk A < next m -> ~ In (mblk A) bs -> forall i j, mfun m' A i j = mfun m A i j.
Proof. intros Hk Hb Hn i j. unfold mfun. rewrite (kb_get bs m m'); [reflexivity|exact Hk|exact Hb|exact Hn]. Qed.

Lemma lm_apart D m X Y Z b : lm D m (X ++ Y ++ Z) -> In b (map mblk X) -> In b (map mblk Y) -> False.
Proof.
  intros (_ & H & _) HX HY. rewrite !map_app in H. revert H. induction (map mblk X) as [|x l IH]; [destruct HX|]. intros H. cbn in H. inversion H as [|? ? N1 N2]; subst.
  destruct HX as [->|HX]; [|apply IH; assumption]. apply N1. apply in_or_app. right. apply in_or_app. left. exact HY.
Qed.
Lemma lm_writes D m m' Ls (W : addr -> Prop) : lm D m Ls -> keeps W m m' -> (forall a, W a -> exists A, In A Ls /\ inm A a) ->
  (forall A, In A Ls -> malloc m' A \/ (forall a, inm A a -> ~ W a)) -> lm D m' Ls.
Proof.
  intros (H1 & H2 & H3 & H4) Hk HW HA. split; [|split; [exact H2|split]].
  - rewrite Forall_forall in *. intros A HI. destruct (HA A HI) as [Hm|Hm]; [|eapply matown_keeps; eauto].
    destruct (H1 A HI) as (A1 & A2 & A3 & A4). split; [exact A1|]. split; [destruct Hk; lia|]. auto.
  - intros b Hb. apply H3. destruct Hk. lia.
  - intros a Hd Hn. rewrite (proj2 Hk); [apply H4; assumption|]. intros Hc. destruct (HW a Hc) as (A & HI & Ha). apply inm_blk in Ha. apply Hn. rewrite Ha. apply in_map, HI.
Qed.
(** Writing into one of the matrices *)
Lemma lm_write1 D m m' Ls A : lm D m Ls -> In A Ls -> keeps (inm A) m m' -> malloc m' A -> lm D m' Ls.
Proof.
  intros H HA Hk Ha. destruct (in_split _ _ HA) as (l1 & l2 & ->). eapply lm_perm; [|eapply lm_write; [|exact Hk|exact Ha]]; [|eapply lm_perm; [|exact H]]; [apply Permutation_middle|symmetry; apply Permutation_middle].
Qed.
Lemma lm_in_disj D m A B Ls : lm D m Ls -> In A Ls -> In B Ls -> mblk A <> mblk B -> disj (inm A) (inm B).
Proof. intros _ _ _ Hn a Ha Hb. apply inm_blk in Ha, Hb. congruence. Qed.
Lemma lm_neq D m A Ls B : lm D m (A :: Ls) -> In B Ls -> mblk B <> mblk A.
Proof. intros (_ & H & _) HB E. cbn in H. inversion H as [|? ? N1 N2]; subst. apply N1. rewrite <- E. apply in_map, HB. Qed.
Lemma lm_nin D m A Ls : lm D m (A :: Ls) -> ~ In (mblk A) (map mblk Ls).
Proof. intros (_ & H & _). cbn in H. inversion H; assumption. Qed.

(** The blocks of [Ys] are among those of [Xs] or new. *)
Definition newb (Xs Ys : list mat) m : Prop := forall b, In b (map mblk Ys) -> In b (map mblk Xs) \/ next m <= b.

(** ** Vectors among the matrices *)
Definition vm (v : vec) : mat := Mat (vblk v) (voff v) (vdim v) (vdim v) 1 (vown v).
Lemma ma_vm v i : ma (vm v) i 0 = va v i.
Proof. unfold ma, va, vm. cbn. f_equal. lia. Qed.
Lemma inm_vm v a : inm (vm v) a <-> inv v a.
Proof.
  split.
  - intros (i & j & Hi & Hj & ->). cbn in Hi, Hj. assert (j = 0) by lia. subst j. rewrite ma_vm. exists i. auto.
  - intros (i & Hi & ->). exists i, 0. rewrite ma_vm. cbn. auto.
Qed.
Lemma malloc_vm m v : malloc m (vm v) <-> valloc m v.
Proof.
  split.
  - intros H i Hi. rewrite <- ma_vm. apply H; cbn; lia.
  - intros H i j Hi Hj. cbn in Hi, Hj. assert (j = 0) by lia. subst j. rewrite ma_vm. apply H, Hi.
Qed.
Lemma wp_initv_lm D m Ls n (Q : vec -> mem K -> Prop) : lm D m Ls ->
  (forall v m', v = Vec (next m) 0 n true -> lm D m' (vm v :: Ls) -> kb [] m m' -> Q v m') -> wp TT TT (init_avector n) m Q.
Proof.
  intros H HQ. apply wp_init_avector. intros v -> _. apply HQ; [reflexivity| |].
  - pose proof (lm_alloc D m Ls n 1 H) as HA. rewrite Nat.mul_1_r in HA. exact HA.
  - split; [cbn; lia|]. intros a Ha. apply get_alloc_old. intros E. apply Ha. right. lia.
Qed.
Lemma wp_uninitv_lm D m v Ls (Q : unit -> mem K -> Prop) : lm D m (vm v :: Ls) ->
  (forall m', lm D m' Ls -> kb [vblk v] m m' -> Q tt m') -> wp TT TT (uninit_avector v) m Q.
Proof.
  intros H HQ. destruct (lm_own _ _ _ _ H (or_introl eq_refl)) as (H1 & H2 & _). cbn in H1, H2. unfold uninit_avector. rewrite H1. cbn.
  split; [exact H2|]. split; [intros; exact I|]. apply HQ; [apply (lm_free D m (vm v)), H|].
  split; [cbn; lia|]. intros a Ha. rewrite get_dealloc. destruct (Nat.eqb_spec (fst a) (vblk v)) as [E|]; [exfalso; apply Ha; left; left; symmetry; exact E|reflexivity].
Qed.
Lemma wp_init_kb D m Ls r c (Q : mat -> mem K -> Prop) : lm D m Ls ->
  (forall A m', A = Mat (next m) 0 r r c true -> lm D m' (A :: Ls) -> kb [] m m' -> Q A m') -> wp TT TT (init_amatrix r c) m Q.
Proof. intros H HQ. eapply wp_init_lm; [exact H|]. intros A m' E Hl Hk. apply HQ; [exact E|exact Hl|]. eapply kb_of; [exact Hk|]. auto. Qed.
Lemma wp_uninit_kb D m A Ls (Q : unit -> mem K -> Prop) : lm D m (A :: Ls) ->
  (forall m', lm D m' Ls -> kb [mblk A] m m' -> Q tt m') -> wp TT TT (uninit_amatrix A) m Q.
Proof. intros H HQ. eapply wp_uninit_lm; [exact H|]. intros m' Hl Hk. apply HQ; [exact Hl|]. eapply kb_of; [exact Hk|]. cbn. auto. Qed.

Lemma TTr (P : addr -> Prop) : rdok TT TT P. Proof. intros a _. left. exact I. Qed.
Lemma TTw (P : addr -> Prop) : wrok TT P. Proof. intros a _. exact I. Qed.

Lemma inm_dec A a : inm A a \/ ~ inm A a.
Proof.
  destruct (existsb (fun i => existsb (fun j => (fst a =? fst (ma A i j)) && (snd a =? snd (ma A i j))) (seq 0 (mcols A))) (seq 0 (mrows A))) eqn:E.
  - left. apply existsb_exists in E as (i & Hi & E). apply existsb_exists in E as (j & Hj & E). apply andb_true_iff in E as [E1%Nat.eqb_eq E2%Nat.eqb_eq].
    apply in_seq in Hi, Hj. exists i, j. split; [lia|]. split; [lia|]. destruct a; cbn in *. subst. reflexivity.
  - right. intros (i & j & Hi & Hj & ->). rewrite <- not_true_iff_false in E. apply E. apply existsb_exists. exists i. split; [apply in_seq; lia|].
    apply existsb_exists. exists j. split; [apply in_seq; lia|]. rewrite !Nat.eqb_refl. reflexivity.
Qed.
(** Writing a part [B] of a matrix [C] of the list *)
Lemma lm_writep D m m' Ls B C f : lm D m Ls -> In C Ls -> (forall a, inm B a -> inm C a) -> keeps (inm B) m m' -> mval m' B f -> lm D m' Ls /\ kb [mblk C] m m'.
Proof.
  intros H HC HI Hk Hv. assert (Hk' : keeps (inm C) m m') by (eapply keeps_mono; [exact HI|exact Hk]).
  split; [|apply kb_inm, Hk']. destruct (lm_own _ _ _ _ H HC) as (C1 & C2 & C3 & C4).
  eapply lm_write1; [exact H|exact HC|exact Hk'|]. intros i j Hi Hj.
  destruct (inm_dec B (ma C i j)) as [(p & q & Hp & Hq & ->)|Hno].
  - rewrite (Hv p q Hp Hq). discriminate.
  - rewrite (proj2 Hk); [apply C4; assumption|exact Hno].
Qed.
(** Copying into a matrix of the list or a part of it *)
Lemma wp_copy_lm D m Ls (t : bool) A B C f (Q : unit -> mem K -> Prop) : lm D m Ls -> In C Ls -> mwf B -> (forall a, inm B a -> inm C a) -> mblk B = mblk C ->
  mval m A f -> mblk A <> mblk C ->
  (if t then mcols A else mrows A) = mrows B -> (if t then mrows A else mcols A) = mcols B ->
  (forall m', mval m' B (tr t f) -> lm D m' Ls -> kb [mblk C] m m' -> keeps (inm B) m m' -> Q tt m') ->
  wp TT TT (copy_amatrix t A B) m Q.
Proof.
  intros H HC HwB HBC Ebl HA Hn E1 E2 HQ. destruct (lm_own _ _ _ _ H HC) as (C1 & C2 & C3 & C4).
  eapply wp_copy_amatrix with (f := f); [exact HwB|exact HA| | |apply TTr|apply TTw|exact E1|exact E2|].
  { intros i j Hi Hj. destruct (HBC (ma B i j)) as (p & q & Hp & Hq & ->); [exists i, j; auto|]. apply C4; assumption. }
  { intros a Ha Hb. apply inm_blk in Ha, Hb. congruence. }
  intros m' Hv Hk. destruct (lm_writep _ _ _ _ _ _ _ H HC HBC Hk Hv) as [L1 L2]. apply HQ; assumption.
Qed.
End P.

Section Q.
Context {K : fops} {G : ofops} (L : field_laws K) (O : qops K) (H : qlaws O).
Notation RL := (fl_ring K L).
Add Ring KringO1 : (rl_ring K (fl_ring K L)).
Implicit Types (m : mem K) (cb s : cbasis G) (D : nat -> Prop) (Ls : list mat) (F f e R : nat -> nat -> K).
Notation up F := (tripart false false F).

(** ** The QR decomposition of a matrix of the list *)
Definition qrfac (n c : nat) (f F : nat -> nat -> K) (t : nat -> K) : Prop :=
  unitary n (qmat n F t (Nat.min n c)) /\
  (exact_zero O -> forall i j, i < n -> j < c -> f i j = mmul n (qmat n F t (Nat.min n c)) (up F) i j).

Lemma wp_qr_lm D m Vh tau Ls f (Q : vec -> mem K -> Prop) : lm D m (vm tau :: Vh :: Ls) -> mval m Vh f -> vdim tau = Nat.min (mrows Vh) (mcols Vh) ->
  (forall F t m', qrfac (mrows Vh) (mcols Vh) f F t -> mval m' Vh F -> tval m' tau (vdim tau) t -> lm D m' (vm tau :: Vh :: Ls) ->
     kb [vblk tau; mblk Vh] m m' -> Q tau m') ->
  wp TT TT (qrdecomp_amatrix O Vh tau) m Q.
Proof.
  intros Hl Hf Ed HQ. destruct (lm_own _ _ _ (vm tau) Hl (or_introl eq_refl)) as (T1 & T2 & T3 & T4). destruct (lm_own _ _ _ Vh Hl (or_intror (or_introl eq_refl))) as (V1 & V2 & V3 & V4).
  assert (Hd : disj (inm Vh) (inv tau)).
  { intros a Ha Hb. apply (lm_disj _ _ _ _ Vh Hl (or_introl eq_refl) a); [apply inm_vm, Hb|exact Ha]. }
  eapply (wp_qrdecomp L O H) with (f := f); [exact V3|exact Hf|apply malloc_vm, T4|rewrite Ed; lia|exact Hd|apply TTw|apply TTw|].
  intros F t E m' HI HF Ht Hk. destruct (qrinv_final L O H _ _ _ _ _ _ HI) as (U1 & U2 & U3). rewrite <- Ed in Ht, Hk.
  assert (Hk' : keeps (fun a => inm (vm tau) a \/ inm Vh a) m m').
  { eapply keeps_mono; [|exact Hk]. intros a [Ha|(i & Hi & ->)]; [right; exact Ha|left; apply inm_vm; exists i; auto]. }
  apply (HQ F t m'); [|exact HF|exact Ht| |].
  - split; [exact U1|]. intros HE i j Hi Hj. rewrite U2 by assumption. rewrite (HE (mrows Vh) (fun i => E i j) (U3 j Hj) i Hi). ring.
  - eapply lm_writes; [exact Hl|exact Hk'| |].
    + intros a [Ha|Ha]; eexists; (split; [|exact Ha]); [left|right; left]; reflexivity.
    + intros A [<-|[<-|HA]].
      * left. apply malloc_vm. intros i Hi. rewrite (Ht i Hi). discriminate.
      * left. intros i j Hi Hj. rewrite (HF i j Hi Hj). discriminate.
      * right. intros a Ha [Hb|Hb].
        -- apply (lm_disj _ _ _ _ A Hl (or_intror HA) a); assumption.
        -- apply inm_blk in Ha, Hb. assert (HN : NoDup (map mblk (vm tau :: Vh :: Ls))) by apply Hl. cbn in HN. inversion HN as [|? ? _ N2]; subst. inversion N2 as [|? ? N3 _]; subst.
           apply N3. rewrite <- Hb, Ha. apply in_map, HA.
  - eapply kb_of; [exact Hk'|]. intros a [Ha|Ha]; apply inm_blk in Ha; cbn in *; auto.
Qed.

(** ** Copying the triangular factor into an uninitialised matrix *)
Lemma wp_copy_upper_fresh (R' W' : addr -> Prop) A B f m (Q : unit -> mem K -> Prop) :
  mwf B -> mval m A f -> malloc m B -> disj (inm A) (inm B) -> rdok R' W' (inm A) -> wrok W' (inm B) -> mcols B <= mcols A -> mrows B <= mrows A ->
  (forall m', mval m' B (up f) -> keeps (inm B) m m' -> Q tt m') ->
  wp R' W' (copy_upper_amatrix A false B) m Q.
Proof.
  intros Hw HA HB Hd Hr Hww Hc Hrw HQ. unfold copy_upper_amatrix. rewrite (Nat.min_r (mrows A)), (Nat.min_r (mcols A)) by assumption. cbv zeta.
  assert (HS : forall i j (v : K) m1 (Q1 : unit -> mem K -> Prop), i < mrows B -> j < mcols B -> malloc m1 B -> keeps (inm B) m m1 ->
     (malloc (upd m1 (ma B i j) v) B -> keeps (inm B) m (upd m1 (ma B i j) v) -> (forall i' j', (i' < mrows B) -> (i' <> i \/ j' <> j) -> get (upd m1 (ma B i j) v) (ma B i' j') = get m1 (ma B i' j')) ->
        get (upd m1 (ma B i j) v) (ma B i j) = Val v -> Q1 tt (upd m1 (ma B i j) v)) ->
     wp R' W' (mstore B i j v) m1 Q1).
  { intros i j v m1 Q1 Hi Hj Hm1 Hk1 HQ1.
    assert (X1 : forall i' j', i' < mrows B -> i' <> i \/ j' <> j -> get (upd m1 (ma B i j) v) (ma B i' j') = get m1 (ma B i' j')).
    { intros i' j' Hi' Hne. apply get_upd_other. intros E. apply ma_inj in E; [lia|exact Hw|lia|lia]. }
    assert (X2 : get (upd m1 (ma B i j) v) (ma B i j) = Val v) by (rewrite get_upd by (apply Hm1; assumption); destruct (addr_eqb_spec (ma B i j) (ma B i j)); congruence).
    eapply wp_mstore; [exact Hm1|exact Hi|exact Hj|exact Hww|]. apply HQ1; [|apply keeps_upd_r; [exact Hk1|exists i, j; auto]|exact X1|exact X2].
    intros i' j' Hi' Hj'. destruct (Nat.eq_dec i' i) as [->|]; [destruct (Nat.eq_dec j' j) as [->|]; [rewrite X2; discriminate|]|]; rewrite X1 by (try assumption; lia); apply Hm1; assumption. }
  set (P := fun (ok : nat -> nat -> Prop) m1 => malloc m1 B /\ keeps (inm B) m m1 /\ pval m1 B ok (up f)).
  apply (wp_for (fun j => P (fun _ j' => j' < j))).
  - split; [exact HB|]. split; [apply keeps_refl|]. intros i j _ _ Hlt. lia.
  - intros j m1 Hj (P1 & P2 & P3). apply wp_bind. apply wp_bind.
    apply (wp_for (fun i => P (fun i' j' => j' < j \/ j' = j /\ i' < i))).
    + split; [exact P1|]. split; [exact P2|]. intros i' j' Hi' Hj' [Hlt|Hlt]; [apply P3; assumption|lia].
    + intros i m2 Hi (S1 & S2 & S3). assert (HA2 : mval m2 A f) by (eapply mval_keeps; [exact HA|exact S2|exact Hd]). wstep.
      apply HS; [lia|lia|exact S1|exact S2|]. intros T1 T2 T3 T4. split; [exact T1|]. split; [exact T2|].
      intros i' j' Hi' Hj' Hok. destruct (Nat.eq_dec j' j) as [->|Hne]; [destruct (Nat.eq_dec i' i) as [->|Hne]|].
      * rewrite T4. f_equal. unfold tripart. bsplit; try lia; subst; reflexivity.
      * rewrite T3 by (try assumption; lia). apply S3; [assumption|assumption|right; lia].
      * rewrite T3 by (try assumption; lia). apply S3; [assumption|assumption|left; lia].
    + intros m2 (S1 & S2 & S3). cbn [wp].
      apply (wp_for (fun i => P (fun i' j' => j' < j \/ j' = j /\ i' < i))).
      * split; [exact S1|]. split; [exact S2|]. intros i' j' Hi' Hj' Hok. apply S3; [assumption|assumption|lia].
      * intros i m3 Hi (U1 & U2 & U3). apply HS; [lia|lia|exact U1|exact U2|]. intros T1 T2 T3 T4. split; [exact T1|]. split; [exact T2|].
        intros i' j' Hi' Hj' Hok. destruct (Nat.eq_dec j' j) as [->|Hne]; [destruct (Nat.eq_dec i' i) as [->|Hne]|].
        -- rewrite T4. f_equal. unfold tripart. bsplit; try lia; subst; reflexivity.
        -- rewrite T3 by (try assumption; lia). apply U3; [assumption|assumption|right; lia].
        -- rewrite T3 by (try assumption; lia). apply U3; [assumption|assumption|left; lia].
      * intros m3 (U1 & U2 & U3). split; [exact U1|]. split; [exact U2|]. intros i' j' Hi' Hj' Hok. apply U3; [assumption|assumption|lia].
  - intros m1 (P1 & P2 & P3). apply HQ; [|exact P2]. intros i j Hi Hj. apply P3; [assumption|assumption|lia].
Qed.

Lemma wp_put_factor D m Vh t r c C l Ls F k k0 (Q : clusterop G -> mem K -> Prop) :
  lm D m (Vh :: C :: Ls) -> mval m Vh F -> mrows C = r -> mcols C = c -> k <= mrows Vh -> mcols Vh = k0 ->
  (forall C' m', mrows C' = k -> mcols C' = k0 -> mval m' C' (up F) -> lm D m' (Vh :: C' :: Ls) -> (mblk C' = mblk C \/ next m <= mblk C') -> kb [mblk C] m m' -> Q (CO t k k0 C' l) m') ->
  wp TT TT (put_factor Vh k k0 (CO t r c C l)) m Q.
Proof.
  intros Hl HF Er Ec Hk Ek HQ. unfold put_factor, resize_clusteroperator.
  assert (HC : forall C1 m1, mrows C1 = k -> mcols C1 = k0 -> lm D m1 (C1 :: Vh :: Ls) -> (mblk C1 = mblk C \/ next m <= mblk C1) -> kb [mblk C] m m1 ->
     wp TT TT (copy_upper_amatrix Vh false C1 ;;; Ret (CO t k k0 C1 l)) m1 Q).
  { intros C1 m1 E1 E2 Hl1 Hb1 K1. pose proof (lm_own _ _ _ C1 Hl1 (or_introl eq_refl)) as (C11 & C12 & C13 & C14).
    assert (HV : mblk Vh < next m) by apply (lm_own _ _ _ Vh Hl (or_introl eq_refl)).
    assert (HF1 : mval m1 Vh F). { eapply mval_kb; [exact HF|exact K1|exact HV|]. intros [E|[]]. apply (lm_neq _ _ _ _ C Hl (or_introl eq_refl)). exact E. }
    apply wp_bind. eapply wp_copy_upper_fresh; [exact C13|exact HF1|exact C14| |apply TTr|apply TTw|lia|lia|].
    { intros a Ha Hb. apply (lm_disj _ _ _ _ Vh Hl1 (or_introl eq_refl) a); assumption. }
    intros m2 Hv2 Hk2. cbn [wp]. apply HQ; [exact E1|exact E2|exact Hv2| |exact Hb1|].
    - eapply lm_perm; [apply perm_swap|]. eapply lm_write; [exact Hl1|exact Hk2|]. intros i j Hi Hj. rewrite (Hv2 i j Hi Hj). discriminate.
    - eapply kb_trans; [exact K1|apply kb_inm, Hk2|auto|]. intros b [<-|[]]. cbn. destruct Hb1 as [E|E]; [left; left; symmetry; exact E|right; exact E]. }
  assert (Hl' : lm D m (C :: Vh :: Ls)) by (eapply lm_perm; [apply perm_swap|exact Hl]).
  destruct (negb (k =? r) || negb (k0 =? c)) eqn:E; cbv iota.
  - apply wp_bind. apply wp_bind. eapply wp_resize_lm; [exact Hl'|]. intros B m1 E1 E2 Hl1 Hb K1. cbn [wp co_C]. apply HC; [exact E1|exact E2|exact Hl1|exact Hb|]. eapply kb_of; [exact K1|]. cbn. intros a [Ha|Ha]; auto.
  - apply orb_false_iff in E as [E1%negb_false_iff%Nat.eqb_eq E2%negb_false_iff%Nat.eqb_eq]. subst r c. rewrite <- E1, <- E2. apply wp_bind. cbn [wp co_C]. apply HC; auto. apply kb_refl.
Qed.
End Q.
