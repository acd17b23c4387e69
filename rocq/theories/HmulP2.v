(** * Products of H-matrices: one factor is a leaf *)
From Coq Require Import Arith Lia List Bool Permutation Ring.
From Verif Require Import Fld Ord Prog Arr View Loop Line Spec Cluster Block BlockP Avector Amatrix AvectorP AmatrixP AmatrixP2 Rkmatrix RkSpec RkP Factor FactorSpec Chol CholSpec Qr QrSpec
  CbP CbmSpec CbmP CopSpec OrthoP SepP SepP2 Htrunc HtSpec HtP HtP2 HtP3 HtP4 Hmatrix HmSpec HmP HmP4 HlibSpec Harith HaP3 HaddSpec HmvP Hadd MgP MgP2 MgP3 HaddP HaddP2 HaddP3 HaddP4 HaddP5 HaddP6 Hmul HmulP.
Import ListNotations.

Section Mul.
Context {K : fops} {G : ofops} (L : field_laws K).
Notation RL := (fl_ring K L).
Add Ring KringHmul2 : (rl_ring K (fl_ring K L)).
Local Notation hmx := (hmatrix G).
Implicit Types (m : mem K) (h : hmx) (D E F U V : nat -> nat -> K).

Lemma conj_tr (t : bool) F i j : fconj (tr (negb t) F i j) = tr t F j i.
Proof. destruct t; cbn [negb tr]; [reflexivity|apply (rl_conj_conj K RL)]. Qed.
Lemma sum_idf n (f : nat -> K) i : i < n -> sum n (fun l => f l * idf l i)%F = f i.
Proof.
  intros Hi. rewrite (sum_single RL n i); [|exact Hi|].
  - unfold idf. rewrite Nat.eqb_refl. ring.
  - intros l _ Hl. unfold idf. rewrite (proj2 (Nat.eqb_neq l i)) by exact Hl. ring.
Qed.
Lemma conj_idf i j : fconj (idf i j : K) = idf j i.
Proof. unfold idf. rewrite (Nat.eqb_sym j i). destruct (i =? j); [apply (fconj_1 RL)|apply (fconj_0 RL)]. Qed.

(** A new factor *)
Lemma wp_newfac alpha (t : bool) h D (yt : bool) y E m (F : addr -> Prop) B m1 :
  hrep m h D -> mval m y E -> Harith.trows yt y = (if t then hrows h else hcols h) -> mrows B = (if t then hcols h else hrows h) -> Harith.tcols yt y = mcols B ->
  mwf B -> mval m1 B (fun _ _ => f0) -> next m <= mblk B -> moves m nowhere F m1 ->
  wp TT TT (addmul_hmatrix_amatrix_amatrix alpha t h yt y false B) m1 (fun _ m2 => mval m2 B (fun p c => alpha * sum (Harith.trows yt y) (fun q => tr t D p q * tr yt E q c))%F /\ keeps (inm B) m1 m2).
Proof.
  intros HR HY E1 E2 E3 HW HB HN HM.
  eapply (wp_addmul_h RL h TT TT alpha t yt y false B D (tr yt E) (fun _ _ => f0)).
  - exact HW.
  - eapply hrep_moves; [exact HM|exact HR|apply disj_nowhere].
  - unfold HaP3.tval. eapply mval_ext; [eapply mval_moves; [exact HM|exact HY|apply disj_nowhere]|]. intros i j _ _. symmetry; apply (tr_tr RL).
  - exact HB.
  - exact E1.
  - exact E2.
  - exact E3.
  - intros a Ha Hb. pose proof (alloc_lt _ _ (inm_alloc _ _ _ _ HY Ha)). apply inm_blk in Hb. lia.
  - intros a Ha Hb. pose proof (alloc_lt _ _ (inh_alloc _ _ _ _ HR Ha)). apply inm_blk in Hb. lia.
  - apply TTr.
  - apply TTr.
  - apply TTw.
  - intros m2 H2 K2. split; [|exact K2]. eapply mval_ext; [exact H2|]. intros p c _ _. cbn [tr]. ring.
Qed.
Lemma wp_newid alpha (t yt : bool) h D n m (F : addr -> Prop) B m1 :
  hrep m h D -> n = (if t then hrows h else hcols h) -> mrows B = (if t then hcols h else hrows h) -> n = mcols B ->
  mwf B -> mval m1 B (fun _ _ => f0) -> next m <= mblk B -> mblk B < next m1 -> moves m nowhere F m1 ->
  wp TT TT (with_id n (fun id => addmul_hmatrix_amatrix_amatrix alpha t h yt id false B)) m1 (fun _ m2 => mval m2 B (fun p c => alpha * tr t D p c)%F /\ keeps (inm B) m1 m2).
Proof.
  intros HR E1 E2 E3 HW HB HN HNl HM. unfold with_id, init_amatrix, palloc. cbn [bind wp].
  set (I := Mat (next m1) 0 n n n true). set (m2 := alloc m1 (n * n)).
  assert (HI : mwf I) by (unfold mwf; cbn; lia).
  assert (K2 : keeps (fun a => fst a = next m1) m1 m2) by (split; [cbn; lia|]; intros a Ha; apply get_alloc_old; exact Ha).
  apply wp_bind. eapply wp_conseq; [apply (wp_identity_amatrix _ _ I m2 (fun _ m3 => mval m3 I idf /\ keeps (inm I) m2 m3)); [exact HI|apply malloc_fresh|intros a _; left; exact Logic.I|auto]|]. cbv beta. intros _ m3 [V3 K3].
  assert (HR1 : hrep m1 h D) by (eapply hrep_moves; [exact HM|exact HR|apply disj_nowhere]).
  assert (Hh1 : forall a, inh h a -> fst a < next m) by (intros a Ha; exact (alloc_lt _ _ (inh_alloc _ _ _ _ HR Ha))).
  pose proof (moves_le _ _ _ _ HM) as Hle.
  assert (HR3 : hrep m3 h D).
  { eapply hrep_keeps; [eapply hrep_keeps; [exact HR1|exact K2|]|exact K3|].
    - intros a Ha Hb. pose proof (Hh1 a Ha). lia.
    - intros a Ha Hb. pose proof (Hh1 a Ha). apply inm_blk in Hb. cbn in Hb. lia. }
  assert (HB3 : mval m3 B (fun _ _ => f0)).
  { eapply mval_keeps; [eapply mval_keeps; [exact HB|exact K2|]|exact K3|].
    - intros a Ha Hb. apply inm_blk in Ha. lia.
    - intros a Ha Hb. apply inm_blk in Ha. apply inm_blk in Hb. cbn in Hb. lia. }
  apply wp_bind. eapply (wp_addmul_h RL h _ _ alpha t yt I false B D (tr yt idf) (fun _ _ => f0)).
  - exact HW.
  - exact HR3.
  - unfold HaP3.tval. eapply mval_ext; [exact V3|]. intros i j _ _. symmetry; apply (tr_tr RL).
  - exact HB3.
  - destruct yt; cbn; exact E1.
  - exact E2.
  - destruct yt; cbn; exact E3.
  - intros a Ha Hb. apply inm_blk in Ha. apply inm_blk in Hb. cbn in Ha. lia.
  - intros a Ha Hb. pose proof (Hh1 a Ha). apply inm_blk in Hb. lia.
  - intros a _. left. exact Logic.I.
  - intros a _. left. exact Logic.I.
  - intros a _. left. exact Logic.I.
  - intros m4 H4 K4. unfold uninit_amatrix. cbn [mown I bind pfree wp mblk]. pose proof (proj1 K3). pose proof (proj1 K4). cbn in H.
    split; [lia|]. split; [intros o; left; exact Logic.I|].
    assert (KK : keeps (fun a => inm B a \/ fst a = next m1) m1 m4).
    { eapply keeps_trans; [eapply keeps_mono; [|exact K2]; intros a Ha; right; exact Ha|]. eapply keeps_trans; [eapply keeps_mono; [|exact K3]; intros a Ha; right; apply inm_blk in Ha; exact Ha|].
      eapply keeps_mono; [|exact K4]. intros a Ha. left. exact Ha. }
    split; [|apply keeps_dealloc; [lia|exact KK]]. intros i j Hi Hj. rewrite get_dealloc. cbn [fst ma]. rewrite (proj2 (Nat.eqb_neq (mblk B) (next m1))) by lia.
    rewrite (H4 i j Hi Hj). cbn [tr]. f_equal. replace (Harith.trows yt I) with n by (destruct yt; reflexivity).
    assert (EE : sum n (fun q => tr t D i q * tr yt idf q j)%F = tr t D i j).
    { rewrite <- (sum_idf n (fun q => tr t D i q) j) by lia. apply sum_ext. intros q _. destruct yt; cbn [tr]; [rewrite conj_idf|]; reflexivity. }
    rewrite EE. ring.
Qed.
End Mul.
