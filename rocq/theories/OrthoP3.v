(** * Orthogonalisation of cluster bases: products of orthonormal matrices, unchanged parts *)
From Coq Require Import Arith Lia List Bool Permutation Ring.
From Verif Require Import Fld Ord Prog Arr View Loop Line Spec Cluster Block Avector Amatrix AvectorP AmatrixP AmatrixP2 RkP Factor FactorSpec FactorP FactorP2 FactorP3 LrP
  Chol CholSpec CholP5 Qr QrSpec QrP QrP2 QrP3 QrP4 QrP7 QrP8 QrP10 Hmatrix HmSpec HmP Clusterbasis CbSpec CbP CbP2 Cbmgr CbmSpec CbmP CbmP2 CbmP3 Clusterop CopSpec OrthoP OrthoP2.
Import ListNotations.

Section P.
Context {K : fops} {G : ofops} (L : field_laws K) (O : qops K) (H : qlaws O).
Notation RL := (fl_ring K L).
Add Ring KringO3 : (rl_ring K (fl_ring K L)).
Implicit Types (m : mem K) (cb s : cbasis G) (D : nat -> Prop) (Ls X : list mat) (F f e : nat -> nat -> K).
Notation up F := (tripart false false F).

(** ** Products *)
Lemma qrfac_thin n c f F t : qrfac O n c f F t -> exact_zero O -> forall i j, i < n -> j < c ->
  f i j = sum (Nat.min n c) (fun r => qmat n F t (Nat.min n c) i r * up F r j)%F.
Proof.
  intros (_ & HE) HZ i j Hi Hj. rewrite (HE HZ i j Hi Hj). unfold mmul. apply (sum_pad L); [lia|].
  intros r Hr Hn. unfold tripart. bsplit; try lia. ring.
Qed.
Lemma qrfac_orth n c f F t : qrfac O n c f F t -> orthonormal n (Nat.min n c) (qmat n F t (Nat.min n c)).
Proof. intros (HU & _) i j Hi Hj. destruct (HU i j) as [HU1 _]; [lia|lia|]. exact HU1. Qed.
Lemma orthonormal_ext n k V W : (forall p q, p < n -> q < k -> W p q = V p q) -> orthonormal (K := K) n k V -> orthonormal n k W.
Proof. intros HE HV i j Hi Hj. rewrite <- (HV i j Hi Hj). apply sum_ext. intros p Hp. rewrite !HE by assumption. reflexivity. Qed.

Lemma orth_comp n k V (a b : nat -> K) : orthonormal n k V ->
  sum n (fun p => fconj (sum k (fun r => V p r * a r)) * sum k (fun r => V p r * b r))%F = sum k (fun r => fconj (a r) * b r)%F.
Proof.
  intros HV.
  transitivity (sum n (fun p => sum k (fun r => sum k (fun r' => fconj (a r) * (fconj (V p r) * V p r') * b r')))%F).
  { apply sum_ext. intros p _. rewrite (sum_conj RL). rewrite <- (sum_mul_r RL). apply sum_ext. intros r _.
    rewrite <- (sum_mul_l RL). apply sum_ext. intros r' _. rewrite (rl_conj_mul K RL). ring. }
  rewrite (sum_swap RL). apply sum_ext. intros r Hr. rewrite (sum_swap RL).
  transitivity (sum k (fun r' => fconj (a r) * idf r r' * b r')%F).
  { apply sum_ext. intros r' Hr'. rewrite <- (HV r r' Hr Hr'). rewrite (sum_mul_r RL), (sum_mul_l RL). reflexivity. }
  rewrite (sum_single RL k r); [|exact Hr|].
  - unfold idf. rewrite Nat.eqb_refl. ring.
  - intros r' Hr' Hne. unfold idf. destruct (Nat.eqb_spec r r'); [congruence|ring].
Qed.

Lemma orth_node m cb k (Qm : nat -> nat -> K) : cb_size cb = nsum (length (cb_son cb)) (at_ cb_size (cb_son cb)) ->
  (forall i s, nth_error (cb_son cb) i = Some s -> orthonormal (cb_size s) (cb_k s) (cbmat m s) /\
     forall r q, r < cb_k s -> q < k -> mfun m (cb_E s) r q = Qm (nsum i (at_ cb_k (cb_son cb)) + r)%nat q) ->
  orthonormal (nsum (length (cb_son cb)) (at_ cb_k (cb_son cb))) k Qm ->
  orthonormal (cb_size cb) k (cbmat m cb).
Proof.
  intros Es HS HQ i j Hi Hj. rewrite Es, (sum_nsum RL). rewrite <- (HQ i j Hi Hj), (sum_nsum RL). apply sum_ext. intros n Hn.
  destruct (nth_ex _ _ Hn) as [s Hs]. destruct (HS n s Hs) as (HO & HE). rewrite (at_nth cb_size _ _ _ Hs), (at_nth cb_k _ _ _ Hs).
  etransitivity; [|eapply (orth_comp (cb_size s) (cb_k s) (cbmat m s)); exact HO].
  apply sum_ext. intros p Hp. rewrite !(cbmat_node _ _ _ _ _ _ Hs Hp). f_equal; [f_equal|]; apply sum_ext; intros r Hr; rewrite HE by assumption; reflexivity.
Qed.

Lemma prod_node m m' cb cb' (f Qm R : nat -> nat -> K) k : 
  cb_size cb = nsum (length (cb_son cb)) (at_ cb_size (cb_son cb)) -> length (cb_son cb') = length (cb_son cb) ->
  (forall i s s', nth_error (cb_son cb) i = Some s -> nth_error (cb_son cb') i = Some s' -> cb_size s' = cb_size s /\
     (exists Ri, (forall p q, p < cb_size s -> q < cb_k s -> cbmat m s p q = sum (cb_k s') (fun r => cbmat m' s' p r * Ri r q)%F) /\
        (forall r q, r < cb_k s' -> q < cb_k cb -> f (nsum i (at_ cb_k (cb_son cb')) + r)%nat q = sum (cb_k s) (fun x => Ri r x * mfun m (cb_E s) x q)%F)) /\
     (forall r q, r < cb_k s' -> q < k -> mfun m' (cb_E s') r q = Qm (nsum i (at_ cb_k (cb_son cb')) + r)%nat q)) ->
  (forall r q, r < nsum (length (cb_son cb')) (at_ cb_k (cb_son cb')) -> q < cb_k cb -> f r q = sum k (fun x => Qm r x * R x q)%F) ->
  forall p q, p < cb_size cb -> q < cb_k cb -> cbmat m cb p q = sum k (fun r => cbmat m' cb' p r * R r q)%F.
Proof.
  intros Es El HS Hf p q Hp Hq. rewrite Es in Hp. destruct (nsum_pos _ _ _ Hp) as (i & p' & Hi & Hp' & ->).
  destruct (nth_ex _ _ Hi) as [s Hs]. destruct (nth_ex (cb_son cb') i) as [s' Hs']; [lia|]. rewrite (at_nth _ _ _ _ Hs) in Hp'.
  destruct (HS i s s' Hs Hs') as (E1 & (Ri & HR1 & HR2) & HE). rewrite (cbmat_node _ _ _ _ _ _ Hs Hp').
  assert (EA : nsum i (at_ cb_size (cb_son cb)) = nsum i (at_ cb_size (cb_son cb'))).
  { apply nsum_ext. intros n Hn. destruct (nth_ex (cb_son cb) n) as [x Hx]; [lia|]. destruct (nth_ex (cb_son cb') n) as [x' Hx']; [lia|].
    rewrite (at_nth _ _ _ _ Hx), (at_nth _ _ _ _ Hx'). symmetry. apply (HS n x x' Hx Hx'). }
  rewrite EA.
  transitivity (sum (cb_k s') (fun r' => cbmat m' s' p' r' * f (nsum i (at_ cb_k (cb_son cb')) + r')%nat q)%F).
  - transitivity (sum (cb_k s) (fun r => sum (cb_k s') (fun r' => cbmat m' s' p' r' * (Ri r' r * mfun m (cb_E s) r q)))%F).
    { apply sum_ext. intros r Hr. rewrite HR1 by assumption. rewrite <- (sum_mul_r RL). apply sum_ext. intros r' _. ring. }
    rewrite (sum_swap RL). apply sum_ext. intros r' Hr'. rewrite HR2 by assumption. rewrite <- (sum_mul_l RL). reflexivity.
  - transitivity (sum (cb_k s') (fun r' => sum k (fun x => cbmat m' s' p' r' * mfun m' (cb_E s') r' x * R x q))%F).
    { apply sum_ext. intros r' Hr'. rewrite Hf; [| |exact Hq].
      - rewrite <- (sum_mul_l RL). apply sum_ext. intros x Hx. rewrite HE by assumption. ring.
      - pose proof (nsum_in (at_ cb_k (cb_son cb')) i (length (cb_son cb'))) as HN. rewrite (at_nth _ _ _ _ Hs') in HN. lia. }
    rewrite (sum_swap RL). apply sum_ext. intros x Hx. rewrite (cbmat_node _ _ _ _ _ _ Hs') by lia. rewrite (sum_mul_r RL). reflexivity.
Qed.

(** ** Unchanged matrices *)
Definition same X m m' : Prop := keeps (fun a => ~ In (fst a) (map mblk X)) m m'.
Lemma same_refl X m : same X m m. Proof. apply keeps_refl. Qed.
Lemma same_trans X m m1 m2 : same X m m1 -> same X m1 m2 -> same X m m2. Proof. apply keeps_trans. Qed.
Lemma same_sub X Y m m' : same X m m' -> incl Y X -> same Y m m'.
Proof. intros HS HI. eapply keeps_mono; [|exact HS]. cbv beta. intros a Ha Hb. apply Ha. apply in_map_iff in Hb as (A & EA & HA). apply in_map_iff. exists A. auto. Qed.
Lemma same_kb bs X m m' : kb bs m m' -> (forall A, In A X -> mblk A < next m /\ ~ In (mblk A) bs) -> same X m m'.
Proof.
  intros HK HX. eapply keeps_mono; [|exact HK]. cbv beta. intros a Ha Hb. apply in_map_iff in Hb as (A & EA & HA). destruct (HX A HA) as (X1 & X2).
  destruct Ha as [Ha|Ha]; [apply X2; rewrite EA; exact Ha|lia].
Qed.
Lemma same_lm D X Y Z bs m m' : lm D m (X ++ Y ++ Z) -> kb bs m m' -> incl bs (map mblk Y) -> same X m m'.
Proof.
  intros HL HK HI. eapply same_kb; [exact HK|]. intros A HA. split; [apply (lm_own _ _ _ A HL); apply in_or_app; left; exact HA|].
  intros Hb. eapply (lm_apart D m X Y Z (mblk A)); [exact HL|apply in_map, HA|apply HI, Hb].
Qed.
Lemma same_mval X m m' A f : mval m A f -> same X m m' -> In A X -> mval m' A f.
Proof. intros Hv HS HA. eapply mval_keeps; [exact Hv|exact HS|]. intros a Ha Hn. apply Hn. apply inm_blk in Ha. rewrite Ha. apply in_map, HA. Qed.
Lemma same_mfun X m m' A : same X m m' -> In A X -> forall i j, mfun m' A i j = mfun m A i j.
Proof. intros HS HA. eapply mfun_keeps; [exact HS|]. intros a Ha Hn. apply Hn. apply inm_blk in Ha. rewrite Ha. apply in_map, HA. Qed.

(** All matrices but the transfer matrix of the root *)
Definition cbmats0 cb : list mat := cb_V cb :: flat_map cbmats (cb_son cb).
Lemma incb0 cb X : incl (cbmats0 cb) X -> disj (incb cb) (fun a => ~ In (fst a) (map mblk X)).
Proof.
  intros HI a Ha Hn. apply Hn. apply incb_blk in Ha. change (In (fst a) (map mblk (cbmats0 cb))) in Ha.
  apply in_map_iff in Ha as (A & EA & HA). apply in_map_iff. exists A. auto.
Qed.
Lemma mats0_in cb : incl (cbmats0 cb) (cbmats cb).
Proof. rewrite cbmats_E. intros A [<-|HA]; [left; reflexivity|right; right; exact HA]. Qed.
Lemma son_mats cb s : In s (cb_son cb) -> incl (cbmats s) (cbmats0 cb).
Proof. intros Hs A HA. right. apply in_flat_map. exists s. auto. Qed.
Lemma same_cbmat X m m' cb : same X m m' -> incl (cbmats0 cb) X -> forall p q, cbmat m' cb p q = cbmat m cb p q.
Proof. intros HS HI. eapply cbmat_keeps; [exact HS|apply incb0, HI]. Qed.
Lemma same_init X m m' cb : cbinit m cb -> same X m m' -> incl (cbmats0 cb) X -> cbinit m' cb.
Proof. intros Hi HS HI. eapply cbinit_keeps; [exact Hi|exact HS|apply incb0, HI]. Qed.
Lemma oson_mats o i : incl (omats (G := G) (oson o i)) (omats o).
Proof.
  destruct o as [[t r c C l]|]; [|intros A HA; exact HA]. cbn [oson co_son]. destruct (nth_error l i) as [c'|] eqn:E; [|intros A []].
  intros A HA. right. apply in_flat_map. exists c'. split; [eapply nth_error_In; exact E|exact HA].
Qed.

Lemma orth_same ex X m m1 m2 cb : forall cb' o R, orth_of ex m m1 cb cb' o R -> same X m1 m2 -> incl (cbmats0 cb' ++ omats o) X -> orth_of ex m m2 cb cb' o R.
Proof.
  induction cb as [cb IH] using cb_rect'. intros cb' o R HO HS HI. destruct HO as [cb cb' o R O1 O2 O3 O4 O5 O6 O7].
  assert (HI1 : incl (cbmats0 cb') X) by (intros A HA; apply HI, in_or_app; left; exact HA). assert (HI2 : incl (omats o) X) by (intros A HA; apply HI, in_or_app; right; exact HA).
  constructor; [exact O1|exact O2|exact O3| | | |].
  - eapply orthonormal_ext; [|exact O4]. intros p q _ _. eapply same_cbmat; [exact HS|exact HI1].
  - intros HE p q Hp Hq. rewrite (O5 HE p q Hp Hq). apply sum_ext. intros r _. rewrite (same_cbmat _ _ _ _ HS HI1). reflexivity.
  - intros co Eo. destruct (O6 co Eo) as (P1 & P2 & P3). split; [exact P1|]. split; [exact P2|]. eapply same_mval; [exact P3|exact HS|]. apply HI2. subst o. destruct co. left. reflexivity.
  - intros i s s' Hs Hs'. destruct (O7 i s s' Hs Hs') as (Ri & HR). exists Ri. apply nth_in in Hs as [_ Hs]. apply nth_in in Hs' as [_ Hs'].
    eapply IH; [exact Hs|exact HR|exact HS|]. intros A HA. apply in_app_or in HA as [HA|HA].
    + apply HI1. eapply son_mats; [exact Hs'|]. apply mats0_in, HA.
    + apply HI2. eapply oson_mats. exact HA.
Qed.
Lemma orth_src ex (W : addr -> Prop) m m1 m2 cb : forall cb' o R, orth_of ex m1 m2 cb cb' o R -> keeps W m m1 -> disj (incb cb) W -> orth_of ex m m2 cb cb' o R.
Proof.
  induction cb as [cb IH] using cb_rect'. intros cb' o R HO HS HI. destruct HO as [cb cb' o R O1 O2 O3 O4 O5 O6 O7].
  constructor; [exact O1|exact O2|exact O3|exact O4| |exact O6|].
  - intros HE p q Hp Hq. rewrite <- (O5 HE p q Hp Hq). symmetry. eapply cbmat_keeps; [exact HS|exact HI].
  - intros i s s' Hs Hs'. destruct (O7 i s s' Hs Hs') as (Ri & HR). exists Ri. apply nth_in in Hs as [_ Hs].
    eapply IH; [exact Hs|exact HR|exact HS|]. intros a Ha. apply HI. eapply incb_son; eauto.
Qed.
Lemma cbmat_setE m s E : cbmat m (cb_setE s E) = cbmat m s. Proof. destruct s as [t k kt kb0 V E0 l Z]. destruct l; reflexivity. Qed.
Lemma orth_setE ex m m1 cb cb' o R E : orth_of ex m m1 cb cb' o R -> orth_of ex m m1 cb (cb_setE cb' E) o R.
Proof.
  intros HO. destruct HO as [cb cb' o R O1 O2 O3 O4 O5 O6 O7]. destruct (setE_proj cb' E) as (P1 & P2 & P3 & _).
  assert (P5 : cb_mm (cb_setE cb' E) = cb_mm cb') by (destruct cb'; reflexivity).
  constructor; rewrite ?P1, ?P2, ?P3, ?P5, ?cbmat_setE; assumption.
Qed.
End P.
