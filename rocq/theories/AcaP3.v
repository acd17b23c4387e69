(** * Cross approximation with full pivoting: factors and result *)
From Coq Require Import Arith Lia List Bool Ring.
From Verif Require Import Fld Prog Arr View Spec Loop FactorSpec FactorP Rkmatrix RkSpec AmatrixP2 RkP Qr QrP2 Aca AcaSpec AcaP AcaP2.
Import ListNotations.

(** The exchanges [i, ..., i + n - 1], applied in this order. *)
Fixpoint ipfrom (p : nat -> nat) (i n x : nat) : nat :=
  match n with 0 => x | S n' => ipfrom p (S i) n' (swapc i (p i) x) end.
Lemma ipfrom_last p n : forall i x, ipfrom p i (S n) x = swapc (i + n) (p (i + n)) (ipfrom p i n x).
Proof.
  induction n as [|n IH]; intros i x; [cbn; rewrite Nat.add_0_r; reflexivity|].
  change (ipfrom p i (S (S n)) x) with (ipfrom p (S i) (S n) (swapc i (p i) x)). rewrite IH.
  replace (S i + n) with (i + S n) by lia. reflexivity.
Qed.
Lemma ipfrom_ipperm p k x : ipfrom p 0 k x = ipperm p k x.
Proof. induction k as [|k IH]; [reflexivity|]. rewrite ipfrom_last, IH. reflexivity. Qed.

Section AcaP3.
Context {K : fops} (L : field_laws K).
Notation RL := (fl_ring K L).
Add Ring KringA3 : (rl_ring K (fl_ring K L)).
Implicit Types (m : mem K) (R W : addr -> Prop) (a : mat) (f F G : nat -> nat -> K).

(** A partially initialised matrix. *)
Definition mprt m a (P : nat -> nat -> Prop) (g : nat -> nat -> K) : Prop :=
  malloc m a /\ forall i j, i < mrows a -> j < mcols a -> P i j -> get m (ma a i j) = Val (g i j).

Lemma mprt_upd m a P g i j : mwf a -> mprt m a P g -> i < mrows a -> j < mcols a ->
  mprt (upd m (ma a i j) (g i j)) a (fun i' j' => (i' = i /\ j' = j) \/ P i' j') g.
Proof.
  intros Hwf [Ha Hv] Hi Hj. split; [apply malloc_upd; exact Ha|]. intros i' j' Hi' Hj' HP.
  rewrite get_upd by (apply Ha; assumption).
  destruct (addr_eqb_spec (ma a i' j') (ma a i j)) as [E|E].
  - apply ma_inj in E as [-> ->]; auto.
  - apply Hv; auto. destruct HP as [[-> ->]|HP]; [congruence|exact HP].
Qed.
Lemma mprt_weak m a (P P' : nat -> nat -> Prop) g : mprt m a P g ->
  (forall i j, i < mrows a -> j < mcols a -> P' i j -> P i j) -> mprt m a P' g.
Proof. intros [Ha Hv] H. split; auto. Qed.
Lemma mprt_all m a (P : nat -> nat -> Prop) g : mprt m a P g -> (forall i j, i < mrows a -> j < mcols a -> P i j) -> mval m a g.
Proof. intros [Ha Hv] H i j Hi Hj. apply Hv; auto. Qed.

(** One pass of a loop that fills entries [lo <= i < lo + n] of column [j]. *)
Lemma wp_mprt_col R W a P g j lo n body m (Q : unit -> mem K -> Prop) :
  mwf a -> mprt m a P g -> j < mcols a -> lo + n <= mrows a -> 
  (forall i m1, lo <= i < lo + n -> malloc m1 a -> keeps (inm a) m m1 -> 
     wp R W (body i) m1 (fun _ m2 => m2 = upd m1 (ma a i j) (g i j))) ->
  (forall m', mprt m' a (fun i' j' => (j' = j /\ lo <= i' < lo + n) \/ P i' j') g -> keeps (inm a) m m' -> Q tt m') ->
  wp R W (for_ lo n body) m Q.
Proof.
  intros Hwf Hp Hj Hn Hb HQ.
  apply (wp_for (fun i m1 => mprt m1 a (fun i' j' => (j' = j /\ lo <= i' < i) \/ P i' j') g /\ keeps (inm a) m m1)).
  - split; [|apply keeps_refl]. eapply mprt_weak; [exact Hp|]. cbv beta. intros i' j' _ _ [H|H]; [lia|exact H].
  - intros i m1 Hi [H1 H2]. eapply wp_conseq; [apply Hb; [exact Hi|apply H1|exact H2]|].
    cbn. intros _ m2 ->. split.
    + eapply mprt_weak; [eapply mprt_upd; [exact Hwf|exact H1|lia|lia]|]. cbv beta. intros i' j' _ _ [H|H]; [|tauto].
      destruct (Nat.eq_dec i' i); [left; split; lia|right; left; lia].
    + apply keeps_upd_r; [exact H2|apply inm_ma; lia].
  - intros m1 [H1 H2]. apply HQ; assumption.
Qed.

Lemma wp_aca_copy R W a c d k F m (Q : unit -> mem K -> Prop) :
  mwf c -> mwf d -> mval m a F -> malloc m c -> malloc m d ->
  mrows c = mrows a -> mrows d = mcols a -> mcols c = k -> mcols d = k -> k <= mrows a -> k <= mcols a ->
  disj (inm a) (inm c) -> disj (inm a) (inm d) -> disj (inm c) (inm d) ->
  rdok R W (inm a) -> wrok W (inm c) -> wrok W (inm d) ->
  (forall m', mval m' c (acaC F) -> mval m' d (fun i nu => fconj (acaD F nu i)) -> mval m' a F ->
     keeps (fun x => inm c x \/ inm d x) m m' -> Q tt m') ->
  wp R W (aca_copy a c d k) m Q.
Proof.
  intros Wc Wd HA Ac Ad Rc Rd Cc Cd Kr Kc Dac Dad Dcd Ra Wwc Wwd HQ. unfold aca_copy. apply wp_bind.
  assert (HA1 : forall m1, keeps (inm c) m m1 -> mval m1 a F) by (intros m1 Hk; eapply mval_keeps; [exact HA|exact Hk|exact Dac]).
  apply (wp_for (fun j m1 => mprt m1 c (fun _ j' => j' < j) (acaC F) /\ keeps (inm c) m m1)).
  { split; [|apply keeps_refl]. split; [exact Ac|]. intros; lia. }
  { intros j m1 Hj [H1 H2]. apply wp_bind.
    eapply wp_mprt_col with (j := j); [exact Wc|exact H1|lia|lia| |].
    { intros i m2 Hi HAl Hk. eapply wp_mstore; [exact HAl|lia|lia|exact Wwc|]. f_equal. unfold acaC. bsplit; reflexivity. }
    intros m2 H3 Hk3. apply wp_bind. eapply wp_mstore; [apply H3|lia|lia|exact Wwc|].
    eapply wp_mprt_col with (j := j) (g := acaC F); [exact Wc| |lia|lia| |].
    { replace (f1 : K) with (acaC F j j) by (unfold acaC; bsplit; reflexivity). eapply mprt_upd; [exact Wc|exact H3|lia|lia]. }
    { intros i m3 Hi HAl Hk. apply wp_bind. eapply wp_mload; [|lia|lia|exact Ra|].
      { apply HA1. eapply keeps_trans; [|exact Hk]. apply keeps_upd_r; [|apply inm_ma; lia]. eapply keeps_trans; eassumption. }
      eapply wp_mstore; [exact HAl|lia|lia|exact Wwc|]. f_equal. unfold acaC. bsplit; reflexivity. }
    intros m3 H4 Hk4. split.
    - eapply mprt_weak; [exact H4|]. cbv beta. intros i' j' Hi' Hj' Hl.
      destruct (Nat.eq_dec j' j) as [->|]; [|right; right; right; lia].
      destruct (Nat.lt_trichotomy i' j) as [?|[?|?]]; [right; right; left; lia|right; left; lia|left; lia].
    - eapply keeps_trans; [|exact Hk4]. apply keeps_upd_r; [|apply inm_ma; lia]. eapply keeps_trans; eassumption. }
  intros m1 [H1 H2].
  assert (Hc : mval m1 c (acaC F)) by (eapply mprt_all; [exact H1|]; cbv beta; intros; lia).
  assert (Ha1 : mval m1 a F) by (apply HA1; exact H2).
  assert (Ad1 : malloc m1 d). { eapply malloc_keeps; [exact Ad|exact H2|]. apply disj_sym; exact Dcd. }
  clear H1 HA1.
  assert (HA1 : forall m2, keeps (inm d) m1 m2 -> mval m2 a F) by (intros m2 Hk; eapply mval_keeps; [exact Ha1|exact Hk|exact Dad]).
  set (g := fun i nu => fconj (acaD F nu i)).
  apply (wp_for (fun j m2 => mprt m2 d (fun _ j' => j' < j) g /\ keeps (inm d) m1 m2)).
  { split; [|apply keeps_refl]. split; [exact Ad1|]. intros; lia. }
  { intros j m2 Hj [H1 H3]. apply wp_bind.
    eapply wp_mprt_col with (j := j); [exact Wd|exact H1|lia|lia| |].
    { intros i m3 Hi HAl Hk. eapply wp_mstore; [exact HAl|lia|lia|exact Wwd|]. f_equal. unfold g, acaD. bsplit. symmetry. apply (fconj_0 RL). }
    intros m3 H4 Hk4.
    eapply wp_mprt_col with (j := j); [exact Wd|exact H4|lia|lia| |].
    { intros i m4 Hi HAl Hk. apply wp_bind. eapply wp_mload; [|lia|lia|exact Ra|].
      { apply HA1. eapply keeps_trans; [|exact Hk]. eapply keeps_trans; eassumption. }
      eapply wp_mstore; [exact HAl|lia|lia|exact Wwd|]. f_equal. unfold g, acaD. bsplit; reflexivity. }
    intros m4 H5 Hk5. split.
    - eapply mprt_weak; [exact H5|]. cbv beta. intros i' j' Hi' Hj' Hl.
      destruct (Nat.eq_dec j' j) as [->|]; [|right; right; lia].
      destruct (Nat.lt_ge_cases i' j) as [?|?]; [right; left; lia|left; lia].
    - eapply keeps_trans; [|exact Hk5]. eapply keeps_trans; eassumption. }
  intros m2 [H1 H3]. apply HQ.
  - eapply mval_keeps; [exact Hc|exact H3|exact Dcd].
  - eapply mprt_all; [exact H1|]; cbv beta; intros; lia.
  - apply HA1. exact H3.
  - eapply keeps_trans; eapply keeps_mono; [|exact H2| |exact H3]; cbv beta; tauto.
Qed.

(** Reversing the permutations. *)
Lemma wp_aca_swapat R W c i q j F m (Q : unit -> mem K -> Prop) :
  mwf c -> mval m c F -> i < mrows c -> q < mrows c -> j < mcols c -> wrok W (inm c) ->
  (forall m', mval m' c (fun x y => if y =? j then F (swapc i q x) y else F x y) -> keeps (inm c) m m' -> Q tt m') ->
  wp R W (aca_swapat (ma c) i q j) m Q.
Proof.
  intros Hwf HA Hi Hq Hj Hw HQ. unfold aca_swapat.
  assert (Hr : rdok R W (inm c)) by (apply rdok_w; exact Hw).
  apply wp_bind. eapply wp_mload; [exact HA|lia|lia|exact Hr|].
  apply wp_bind. eapply wp_mload; [exact HA|lia|lia|exact Hr|].
  apply wp_bind. eapply wp_mstore; [eapply mval_alloc; exact HA|lia|lia|exact Hw|].
  eapply wp_mstore; [apply malloc_upd; eapply mval_alloc; exact HA|lia|lia|exact Hw|].
  apply HQ.
  - eapply mval_ext; [eapply mval_upd_same; [exact Hwf|eapply mval_upd_same; [exact Hwf|exact HA|lia|lia]|lia|lia]|].
    intros x y Hx Hy. unfold fupd2, swapc. bsplit; try lia; subst; try reflexivity; try lia.
  - apply keeps_upd_r; [|apply inm_ma; lia]. apply keeps_upd; apply inm_ma; lia.
Qed.

Lemma wp_aca_unpivot R W c d k rperm cperm mr mc pr pc C D m (Q : unit -> mem K -> Prop) :
  mwf c -> mwf d -> mval m c C -> mval m d D -> disj (inm c) (inm d) -> wrok W (inm c) -> wrok W (inm d) ->
  k <= mrows c -> k <= mrows d -> k <= mcols c -> k <= mcols d -> k <= mr -> k <= mc ->
  aprt rperm mr (fun i => i < k) pr -> aprt cperm mc (fun i => i < k) pc ->
  (forall i, i < k -> pr i < mrows c) -> (forall i, i < k -> pc i < mrows d) ->
  (forall m', mval m' c (fun x j => if j <? k then C (ipperm pr k x) j else C x j) ->
              mval m' d (fun x j => if j <? k then D (ipperm pc k x) j else D x j) ->
              keeps (fun x => inm c x \/ inm d x) m m' -> Q tt m') ->
  wp R W (aca_unpivot (ma c) (ma d) k rperm cperm) m Q.
Proof.
  intros Wc Wd HC HD Dcd Wwc Wwd Kc Kd KC KD Kr Kk Hpr Hpc Br Bc HQ. unfold aca_unpivot.
  apply (wp_fordown (fun i m1 => mval m1 c (fun x j => if j <? k then C (ipfrom pr i (k - i) x) j else C x j) /\
                                 mval m1 d (fun x j => if j <? k then D (ipfrom pc i (k - i) x) j else D x j) /\
                                 keeps (fun x => inm c x \/ inm d x) m m1)).
  - rewrite Nat.sub_diag. cbn [ipfrom]. split; [|split; [|apply keeps_refl]]; (eapply mval_ext; [eassumption|]); intros; cbv beta; bsplit; reflexivity.
  - intros i m1 Hi (H1 & H2 & H3).
    apply (wp_for (fun j m2 => mval m2 c (fun x y => if y <? k then C (ipfrom pr (S i) (k - S i) (if y <? j then swapc i (pr i) x else x)) y else C x y) /\
                               mval m2 d (fun x y => if y <? k then D (ipfrom pc (S i) (k - S i) (if y <? j then swapc i (pc i) x else x)) y else D x y) /\
                               keeps (fun x => inm c x \/ inm d x) m m2)).
    + split; [|split; [|exact H3]]; (eapply mval_ext; [eassumption|]); intros; cbv beta; bsplit; reflexivity.
    + intros j m2 Hj (H4 & H5 & H6).
      apply wp_bind, wp_lift. rewrite (aprt_get _ _ _ _ i Hpr ltac:(lia) Hi). cbn [rok].
      apply wp_bind. eapply wp_aca_swapat; [exact Wc|exact H4|lia|apply Br; lia|lia|exact Wwc|]. intros m3 H7 K7.
      apply wp_bind, wp_lift. rewrite (aprt_get _ _ _ _ i Hpc ltac:(lia) Hi). cbn [rok].
      assert (H5' : mval m3 d (fun x y => if y <? k then D (ipfrom pc (S i) (k - S i) (if y <? j then swapc i (pc i) x else x)) y else D x y)).
      { eapply mval_keeps; [exact H5|exact K7|]. apply disj_sym. exact Dcd. }
      eapply wp_aca_swapat; [exact Wd|exact H5'|lia|apply Bc; lia|lia|exact Wwd|]. intros m4 H8 K8.
      split; [|split].
      * eapply mval_keeps; [|exact K8|exact Dcd]. eapply mval_ext; [exact H7|]. intros x y Hx Hy. cbv beta.
        bsplit; try lia; try reflexivity.
      * eapply mval_ext; [exact H8|]. intros x y Hx Hy. cbv beta. bsplit; try lia; try reflexivity.
      * eapply keeps_trans; [exact H6|]. eapply keeps_trans; eapply keeps_mono; [|exact K7| |exact K8]; cbv beta; tauto.
    + intros m2 (H4 & H5 & H6). replace (k - i) with (S (k - S i)) by lia. cbn [ipfrom].
      split; [|split; [|exact H6]]; (eapply mval_ext; [eassumption|]); intros; cbv beta; bsplit; try lia; reflexivity.
  - intros m1 (H1 & H2 & H3). rewrite Nat.sub_0_r in *. apply HQ; [| |exact H3].
    + eapply mval_ext; [exact H1|]. intros x j Hx Hj. cbv beta. rewrite ipfrom_ipperm. reflexivity.
    + eapply mval_ext; [exact H2|]. intros x j Hx Hj. cbv beta. rewrite ipfrom_ipperm. reflexivity.
Qed.

Context (gt : K -> K -> bool) (GL : gt_laws gt).

(** The result: a low-rank matrix that agrees with [F] in the pivot rows and columns. *)
Definition crossed (r c : nat) F (X : nat -> nat -> K) (ridx cidx : list nat) : Prop :=
  forall i j, i < r -> j < c -> In i ridx \/ In j cidx -> X i j = F i j.

Lemma ainv_cross r c k pr pc f F :
  ainv r c k (fun i j => f (pperm pr k i) (pperm pc k j)) F -> k <= r -> k <= c ->
  (forall i, i < k -> pr i < r) -> (forall i, i < k -> pc i < c) ->
  crossed r c f (fun i j => sum k (fun nu => acaC F (ipperm pr k i) nu * acaD F nu (ipperm pc k j)))%F
    (map (pperm pr k) (seq 0 k)) (map (pperm pc k) (seq 0 k)).
Proof.
  intros HI Hr Hc Bp Bq i j Hi Hj HIn.
  pose proof (HI (ipperm pr k i) (ipperm pc k j) ltac:(apply ipperm_lt; auto) ltac:(apply ipperm_lt; auto)) as E.
  cbv beta in E. rewrite !pperm_ipperm in E. rewrite E.
  assert (Z : (k <=? ipperm pr k i) && (k <=? ipperm pc k j) = false).
  { destruct HIn as [H|H]; apply in_map_iff in H as (x & <- & Hx); rewrite ipperm_pperm; apply in_seq in Hx;
    destruct (Nat.leb_spec k x); try lia; first [reflexivity|apply andb_false_r]. }
  rewrite Z. ring.
Qed.

Lemma wp_decomp_fullaca a accur r f m (Q : rkm * list nat * list nat -> mem K -> Prop) :
  mwf a -> mval m a f -> rkown m r -> mblk a < next m -> mblk a <> mblk (rk_A r) -> mblk a <> mblk (rk_B r) ->
  fconj accur = accur ->
  (forall r' ridx cidx X F m', rkown m' r' -> mrows (rk_A r') = mrows a -> mrows (rk_B r') = mcols a ->
     rkrep m' r' X -> rk_k r' <= Nat.min (mrows a) (mcols a) ->
     length ridx = rk_k r' -> length cidx = rk_k r' -> indices (mrows a) ridx -> indices (mcols a) cidx ->
     crossed (mrows a) (mcols a) f X ridx cidx ->
     (exists mu, maxsq gt (mrows a) (mcols a) f mu /\
        forall i j, i < mrows a -> j < mcols a -> gt (abssqr (f i j - X i j)%F) (mu * accur * accur)%F = false) ->
     mval m' a F -> keeps (fun x => inm a x \/ rkblk r x \/ next m <= fst x) m m' -> Q (r', ridx, cidx) m') ->
  wp TT TT (decomp_fullaca_rkmatrix gt a accur r) m Q.
Proof.
  intros Hwf HA HO HB N1 N2 Hac HQ. unfold decomp_fullaca_rkmatrix. cbv zeta.
  assert (HTa : wrok TT (inm a)) by (intros x _; exact I).
  apply wp_bind. eapply (wp_aca_search gt GL); [exact HA|apply rdok_w; exact HTa|]. intros [[M0 i0] j0] Hs. cbn [fst].
  assert (Hmu : maxsq gt (mrows a) (mcols a) f M0 /\ gt f0 (M0 * accur * accur)%F = false).
  { destruct Hs as [H1 H2]. cbn [fst snd] in H1, H2. split; [split|].
    - intros i j Hi Hj. apply H1; auto; lia.
    - destruct H2 as [H2|H2]; [left; exact H2|right; exists i0, j0; intuition lia].
    - destruct H2 as [->|(_ & _ & ->)].
      + replace (f0 * accur * accur : K)%F with (f0 : K) by ring. apply (gl_irr gt GL).
      + replace (abssqr (f i0 j0) * accur * accur)%F with (abssqr (f i0 j0 * accur)%F); [apply (gl_pos gt GL)|].
        unfold abssqr. rewrite (rl_conj_mul K RL), Hac. ring. }
  destruct Hmu as [Hmu Htol]. apply wp_bind.
  eapply (wp_fullaca_loop L gt GL) with (pr := fun x => x) (pc := fun x => x) (F := f) (f := f);
    [exact Hwf|exact HTa|exact Htol|exact HA| | |exact Hs|reflexivity|].
  { cbn [pperm]. apply (ainv_0 L). }
  { unfold apok. cbn [ap_rperm ap_cperm ap_rpivot ap_cpivot pperm]. split; [|split; [|split; [|split; [|split]]]].
    - apply anew_prt. intros; lia.
    - apply anew_prt. intros; lia.
    - pose proof (aof_val (seq 0 (mrows a)) 0) as V. rewrite seq_length in V. eapply aval_ext; [exact V|].
      intros i Hi. cbv beta. rewrite seq_nth by exact Hi. reflexivity.
    - pose proof (aof_val (seq 0 (mcols a)) 0) as V. rewrite seq_length in V. eapply aval_ext; [exact V|].
      intros i Hi. cbv beta. rewrite seq_nth by exact Hi. reflexivity.
    - intros; lia.
    - intros; lia. }
  intros k [rm cm rp cp] pr pc F m1 Hk HA1 K1 HI HP Hrem.
  destruct HP as (P1 & P2 & P3 & P4 & P5 & P6). cbn [ap_rperm ap_cperm ap_rpivot ap_cpivot] in *.
  assert (HO1 : rkown m1 r).
  { destruct HO as (O1 & O2 & O3 & O4 & O5 & O6 & O7 & O8 & O9 & O10 & O11). destruct K1 as [Kn Kg].
    unfold rkown. do 9 (split; [auto; lia|]). split.
    - intros i j Hi Hj. rewrite Kg; [apply O10; assumption|]. intros Hx. apply inm_blk in Hx. cbn in Hx. congruence.
    - intros i j Hi Hj. rewrite Kg; [apply O11; assumption|]. intros Hx. apply inm_blk in Hx. cbn in Hx. congruence. }
  assert (Nx1 : next m <= next m1) by apply K1.
  apply wp_bind. eapply wp_resize_rk; [exact HO1|]. intros r' m2 HO2 R1 R2 R3 R4 K2.
  pose proof HO2 as (O1 & O2 & O3 & O4 & O5 & O6 & O7 & O8 & O9 & O10 & O11).
  destruct R4 as [R4 R5].
  assert (Nx2 : next m1 <= next m2) by apply K2.
  assert (HA2 : mval m2 a F).
  { eapply mval_keeps; [exact HA1|exact K2|]. intros x Hx Hy. apply inm_blk in Hx. unfold rkblk in Hy. lia. }
  assert (Dc : disj (inm a) (inm (rk_A r'))). { intros x Hx Hy. apply inm_blk in Hx, Hy. lia. }
  assert (Dd : disj (inm a) (inm (rk_B r'))). { intros x Hx Hy. apply inm_blk in Hx, Hy. lia. }
  assert (Dcd : disj (inm (rk_A r')) (inm (rk_B r'))). { intros x Hx Hy. apply inm_blk in Hx, Hy. lia. }
  apply wp_bind. eapply wp_aca_copy; [exact O6|exact O7|exact HA2|exact O10|exact O11|lia|lia|lia|lia|lia|lia|exact Dc|exact Dd|exact Dcd
    |apply rdok_w; exact HTa|intros x _; exact I|intros x _; exact I|].
  intros m3 HC3 HD3 HA3 K3.
  apply wp_bind. eapply wp_aca_unpivot with (mr := Nat.min (mrows a) (mcols a)) (mc := Nat.min (mrows a) (mcols a)) (pr := pr) (pc := pc);
    [exact O6|exact O7|exact HC3|exact HD3|exact Dcd|intros x _; exact I|intros x _; exact I|lia|lia|lia|lia|lia|lia|exact P1|exact P2| | |].
  { intros i Hi. rewrite R1. apply P5; exact Hi. }
  { intros i Hi. rewrite R2. apply P6; exact Hi. }
  intros m4 HC4 HD4 K4. cbv beta in HD4.
  apply wp_bind, wp_lift. eapply rok_rmap_aget; [apply aval_aprt with (P := fun _ => True); exact P3| |].
  { intros i Hi. apply in_seq in Hi. split; [lia|exact I]. }
  apply wp_bind, wp_lift. eapply rok_rmap_aget; [apply aval_aprt with (P := fun _ => True); exact P4| |].
  { intros i Hi. apply in_seq in Hi. split; [lia|exact I]. }
  cbn [wp].
  pose proof (ainv_cross _ _ _ _ _ _ _ HI ltac:(lia) ltac:(lia) ltac:(intros i Hi; apply P5; exact Hi) ltac:(intros i Hi; apply P6; exact Hi)) as HX.
  assert (K34 : keeps (fun x => inm (rk_A r') x \/ inm (rk_B r') x) m2 m4) by (eapply keeps_trans; eassumption).
  eapply (HQ r' _ _ (fun i j => sum k (fun nu => acaC F (ipperm pr k i) nu * acaD F nu (ipperm pc k j)))%F F).
  - assert (Nx4 : next m2 <= next m4) by apply K34. unfold rkown.
    pose proof (mval_alloc _ _ _ HC4). pose proof (mval_alloc _ _ _ HD4). repeat split; auto; lia.
  - exact R1.
  - exact R2.
  - exists (fun x j => if j <? k then acaC F (ipperm pr k x) j else acaC F x j),
           (fun x j => if j <? k then fconj (acaD F j (ipperm pc k x)) else fconj (acaD F j x)).
    split; [exact HC4|]. split; [exact HD4|]. split; [lia|]. split; [lia|].
    intros i j Hi Hj. unfold lowrank. rewrite R3. apply sum_ext. intros nu Hnu. bsplit; try lia. rewrite (rl_conj_conj K RL). reflexivity.
  - lia.
  - rewrite map_length, seq_length. lia.
  - rewrite map_length, seq_length. lia.
  - apply pperm_indices; [lia|intros i Hi; apply P5; exact Hi].
  - apply pperm_indices; [lia|intros i Hi; apply P6; exact Hi].
  - exact HX.
  - exists M0. split; [exact Hmu|]. intros i j Hi Hj.
    pose proof (HI (ipperm pr k i) (ipperm pc k j)
      ltac:(apply ipperm_lt; auto; [lia|intros x Hx; apply P5; exact Hx]) ltac:(apply ipperm_lt; auto; [lia|intros x Hx; apply P6; exact Hx])) as E.
    cbv beta in E. rewrite !pperm_ipperm in E. rewrite E. set (S0 := sum k _).
    destruct ((k <=? ipperm pr k i) && (k <=? ipperm pc k j)) eqn:Eb.
    + apply andb_true_iff in Eb as [E1%Nat.leb_le E2%Nat.leb_le].
      replace (S0 + F (ipperm pr k i) (ipperm pc k j) - S0)%F with (F (ipperm pr k i) (ipperm pc k j)) by ring.
      apply Hrem; split; try assumption; apply ipperm_lt; auto; try lia; intros x Hx; [apply P5|apply P6]; exact Hx.
    + replace (abssqr (S0 + f0 - S0)%F) with (f0 : K); [exact Htol|].
      unfold abssqr. replace (S0 + f0 - S0)%F with (f0 : K) by ring. ring.
  - eapply mval_keeps; [exact HA3|exact K4|]. intros x Hx [Hy|Hy]; [eapply Dc; eassumption|eapply Dd; eassumption].
  - eapply keeps_trans; [eapply keeps_mono; [|exact K1]; cbv beta; tauto|].
    eapply keeps_trans; [eapply keeps_mono; [|exact K2]|eapply keeps_mono; [|exact K34]]; cbv beta; unfold rkblk.
    + intros x [Hx|Hx]; [tauto|]. right; right; lia.
    + intros x [Hx|Hx]; apply inm_blk in Hx; right; lia.
Qed.
End AcaP3.
