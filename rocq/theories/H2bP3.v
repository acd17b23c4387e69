(** * Projection of a dense matrix: the coupling matrices *)
From Coq Require Import Arith Lia List Bool Permutation Ring.
From Verif Require Import Fld Ord Prog Arr View Loop Line Spec Cluster ClusterSpec Block BlockSpec BlockP BlockP2 Avector Amatrix AvectorP AmatrixP AmatrixP2 RkP Hmatrix HmSpec HmP HmP4 HmP5 HmP6
  Clusterbasis CbSpec CbP CbP2 CbP9 CbP10 Cbmgr CbmSpec CbmP OrthoP OrthoP3 OrthoP4 CopP CopP2 H2matrix H2Spec H2P H2build H2bSpec H2bP H2bP2.
Import ListNotations.

Section P.
Context {K : fops} {G : ofops} (L : ring_laws K).
Add Ring KringH2b3 : (rl_ring K L).
Local Notation cbx := (cbasis G).
Implicit Types (m : mem K) (rb cb : cbasis G) (D : nat -> Prop) (Ls X : list mat) (M : cbasis G -> nat -> nat -> K).

Lemma same_cons D m A Ls m' : lm D m (A :: Ls) -> kb [mblk A] m m' -> same Ls m m'.
Proof.
  intros HL HK. eapply same_kb; [exact HK|]. intros B HB. split; [eapply kb_blk; [exact HL|right; exact HB]|]. intros [E|[]]. apply (lm_neq _ _ _ _ B HL HB). symmetry. exact E.
Qed.
Lemma same_new D m Ls m' : lm D m Ls -> kb [] m m' -> same Ls m m'.
Proof. intros HL HK. eapply same_kb; [exact HK|]. intros B HB. split; [eapply kb_blk; [exact HL|exact HB]|intros []]. Qed.

Lemma wp_gather D m Ls ridx cidx ro co rows cols a B (A : nat -> nat -> K) ip jp (Q : unit -> mem K -> Prop) :
  lm D m Ls -> In B Ls -> mrows B = rows -> mcols B = cols -> mval m a A -> mblk a <> mblk B ->
  idx_at ridx ro rows ip (mrows a) -> idx_at cidx co cols jp (mcols a) ->
  (forall m', mval m' B (fun i j => A (ip i) (jp j)) -> lm D m' Ls -> kb [mblk B] m m' -> Q tt m') ->
  wp TT TT (gather_entries ridx cidx ro co rows cols a B) m Q.
Proof.
  intros HL HB ER EC HA NB Hr Hc HQ. destruct (lm_own _ _ _ B HL HB) as (_ & _ & WB & AB). unfold gather_entries.
  eapply (wp_mfill TT TT B rows cols (fun i j => A (ip i) (jp j)) (fun i j => bind (lift (aget ridx (ro + i))) (fun i1 => bind (lift (aget cidx (co + j))) (fun j1 => bind (mload a i1 j1) (fun v => mstore B i j v))))); [exact WB|exact AB|lia|lia| |].
  - intros i j m1 Hj Hi Ha Hk. destruct (Hr i Hi) as [E1 L1]. destruct (Hc j Hj) as [E2 L2]. rewrite E1, E2. cbn [lift bind].
    assert (HA1 : mval m1 a A). { eapply mval_keeps; [exact HA|exact Hk|]. intros x Hx Hy. apply inm_blk in Hx, Hy. congruence. }
    apply wp_bind. eapply wp_mload; [exact HA1|exact L1|exact L2|apply TTr|]. eapply wp_mstore; [exact Ha|lia|lia|apply TTw|]. apply wrote_upd; [apply Ha; lia|reflexivity].
  - intros m' HV Kk. destruct (lm_writep D m m' _ B B _ HL HB (fun x Hx => Hx) Kk HV) as [H1 H3]. apply HQ; assumption.
Qed.

(** ** Galerkin matrices of clusters with sons *)
Lemma gal_ext M M' rb cb (A A' : nat -> nat -> K) r c1 : (forall p q, M rb p q = M' rb p q) -> (forall p q, M cb p q = M' cb p q) ->
  (forall p q, p < cb_size rb -> q < cb_size cb -> A p q = A' p q) -> gal M rb cb A r c1 = gal M' rb cb A' r c1.
Proof. intros H1 H3 H4. unfold gal. apply sum_ext. intros p Hp. apply sum_ext. intros q Hq. rewrite H1, H3, H4 by assumption. reflexivity. Qed.

Lemma gal_col m rb cb (A : nat -> nat -> K) r c1 : cbok cb -> cb_son cb <> [] ->
  gal (cbmat m) rb cb A r c1 = sum (length (cb_son cb)) (fun j => onth (fun s =>
    sum (cb_k s) (fun x => gal (cbmat m) rb s (fun p q => A p (nsum j (at_ cb_size (cb_son cb)) + q)%nat) r x * mfun m (cb_E s) x c1)%F) (cb_son cb) j).
Proof.
  intros Hok Hn. unfold gal. rewrite (sum_swap L). rewrite (cbok_size cb Hok Hn), (sum_nsum L). apply sum_ext. intros j Hj. destruct (nth_ex _ _ Hj) as [s Hs].
  rewrite (onth_nth _ _ _ _ Hs), (at_nth cb_size _ _ _ Hs).
  transitivity (sum (cb_size s) (fun q => sum (cb_size rb) (fun p => sum (cb_k s) (fun x =>
    fconj (cbmat m rb p r) * A p (nsum j (at_ cb_size (cb_son cb)) + q)%nat * cbmat m s q x * mfun m (cb_E s) x c1)))%F).
  - apply sum_ext. intros q Hq. apply sum_ext. intros p Hp. rewrite (cbmat_node m cb j s q c1 Hs Hq). rewrite <- (sum_mul_l L). apply sum_ext. intros x _. ring.
  - transitivity (sum (cb_k s) (fun x => sum (cb_size rb) (fun p => sum (cb_size s) (fun q =>
      fconj (cbmat m rb p r) * A p (nsum j (at_ cb_size (cb_son cb)) + q)%nat * cbmat m s q x * mfun m (cb_E s) x c1)))%F).
    + rewrite (sum_swap L). transitivity (sum (cb_size rb) (fun p => sum (cb_k s) (fun x => sum (cb_size s) (fun q =>
      fconj (cbmat m rb p r) * A p (nsum j (at_ cb_size (cb_son cb)) + q)%nat * cbmat m s q x * mfun m (cb_E s) x c1)))%F).
      * apply sum_ext. intros p _. apply (sum_swap L).
      * apply (sum_swap L).
    + apply sum_ext. intros x _. rewrite <- (sum_mul_r L). apply sum_ext. intros p _. rewrite <- (sum_mul_r L). reflexivity.
Qed.
Lemma gal_row m rb cb (A : nat -> nat -> K) r c1 : cbok rb -> cb_son rb <> [] ->
  gal (cbmat m) rb cb A r c1 = sum (length (cb_son rb)) (fun i => onth (fun s =>
    sum (cb_k s) (fun x => fconj (mfun m (cb_E s) x r) * gal (cbmat m) s cb (fun p q => A (nsum i (at_ cb_size (cb_son rb)) + p)%nat q) x c1)%F) (cb_son rb) i).
Proof.
  intros Hok Hn. unfold gal. rewrite (cbok_size rb Hok Hn), (sum_nsum L). apply sum_ext. intros j Hj. destruct (nth_ex _ _ Hj) as [s Hs].
  rewrite (onth_nth _ _ _ _ Hs), (at_nth cb_size _ _ _ Hs).
  transitivity (sum (cb_size s) (fun p => sum (cb_k s) (fun x => fconj (mfun m (cb_E s) x r) * sum (cb_size cb) (fun q =>
    fconj (cbmat m s p x) * A (nsum j (at_ cb_size (cb_son rb)) + p)%nat q * cbmat m cb q c1)))%F).
  - apply sum_ext. intros p Hp.
    transitivity (sum (cb_size cb) (fun q => sum (cb_k s) (fun x => fconj (mfun m (cb_E s) x r) * (fconj (cbmat m s p x) * A (nsum j (at_ cb_size (cb_son rb)) + p)%nat q * cbmat m cb q c1)))%F).
    + apply sum_ext. intros q _. rewrite (cbmat_node m rb j s p r Hs Hp), (sum_conj L). rewrite <- (sum_mul_r L), <- (sum_mul_r L). apply sum_ext. intros x _.
      rewrite (rl_conj_mul K L). ring.
    + rewrite (sum_swap L). apply sum_ext. intros x _. rewrite <- (sum_mul_l L). reflexivity.
  - rewrite (sum_swap L). apply sum_ext. intros x _. rewrite <- (sum_mul_l L). reflexivity.
Qed.

(** The last steps for one son: the contribution is added and the auxiliary matrix deleted. *)
Lemma acc_r D m m2 s s1 Ls E e g h (Q : unit -> mem K -> Prop) :
  lm D m2 (s1 :: s :: Ls) -> In E Ls -> mblk s1 = next m -> mblk s < next m -> kb [] m m2 -> mval m2 E e -> mval m2 s1 g -> mval m2 s h ->
  mrows s1 = mrows s -> mcols E = mcols s -> mcols s1 = mrows E ->
  (forall m', mval m' s (fun i k => h i k + sum (mcols s1) (fun x => g i x * e x k))%F -> lm D m' (s :: Ls) -> kb [mblk s] m m' -> Q tt m') ->
  wp TT TT (bind (addmul_amatrix f1 false s1 false E s) (fun _ => uninit_amatrix s1)) m2 Q.
Proof.
  intros HL HE B1 B2 HK Ve Vg Vh R1 R2 R3 HQ. assert (N1 : mblk E <> mblk s).
  { assert (HL' : lm D m2 (s :: s1 :: Ls)) by (eapply lm_perm; [|exact HL]; perm). apply (lm_neq _ _ _ _ E HL'). right. exact HE. }
  apply wp_bind. eapply (wp_addmul_lm L D m2 _ f1 false s1 false E s g e h); [exact HL|right; left; reflexivity|lia|exact N1|exact Vg|exact Ve|exact Vh|exact R1|exact R2|exact R3|].
  intros m3 V3 HL3 K3. eapply wp_uninit_kb; [exact HL3|]. intros m4 HL4 K4. pose proof (kb_next _ _ _ HK). pose proof (kb_next _ _ _ K3). apply HQ; [|exact HL4|].
  - assert (V4 : mval m4 s (fun i k => h i k + f1 * sum (mcols s1) (fun j => tr false g i j * tr false e j k))%F).
    { eapply mval_kb; [exact V3|exact K4|lia|]. intros [X|[]]. lia. }
    intros i k Hi Hk. rewrite (V4 i k Hi Hk). f_equal. cbn [tr]. ring.
  - eapply (kb_trans [] [mblk s; mblk s1] [mblk s]); [exact HK| |intros b []|cbn; intros b [<-|[<-|[]]]; [left; left; reflexivity|right; lia]].
    eapply (kb_trans [mblk s] [mblk s1] [mblk s; mblk s1]); [exact K3|exact K4|cbn; tauto|cbn; tauto].
Qed.
Lemma acc_l D m m2 s s1 Ls E e g h (Q : unit -> mem K -> Prop) :
  lm D m2 (s1 :: s :: Ls) -> In E Ls -> mblk s1 = next m -> mblk s < next m -> kb [] m m2 -> mval m2 E e -> mval m2 s1 g -> mval m2 s h ->
  mcols E = mrows s -> mcols s1 = mcols s -> mrows E = mrows s1 ->
  (forall m', mval m' s (fun i k => h i k + sum (mrows s1) (fun x => fconj (e x i) * g x k))%F -> lm D m' (s :: Ls) -> kb [mblk s] m m' -> Q tt m') ->
  wp TT TT (bind (addmul_amatrix f1 true E false s1 s) (fun _ => uninit_amatrix s1)) m2 Q.
Proof.
  intros HL HE B1 B2 HK Ve Vg Vh R1 R2 R3 HQ. assert (N1 : mblk E <> mblk s).
  { assert (HL' : lm D m2 (s :: s1 :: Ls)) by (eapply lm_perm; [|exact HL]; perm). apply (lm_neq _ _ _ _ E HL'). right. exact HE. }
  apply wp_bind. eapply (wp_addmul_lm L D m2 _ f1 true E false s1 s e g h); [exact HL|right; left; reflexivity|exact N1|lia|exact Ve|exact Vg|exact Vh|exact R1|exact R2|exact R3|].
  intros m3 V3 HL3 K3. eapply wp_uninit_kb; [exact HL3|]. intros m4 HL4 K4. pose proof (kb_next _ _ _ HK). pose proof (kb_next _ _ _ K3). apply HQ; [|exact HL4|].
  - assert (V4 : mval m4 s (fun i k => h i k + f1 * sum (mrows E) (fun j => tr true e i j * tr false g j k))%F).
    { eapply mval_kb; [exact V3|exact K4|lia|]. intros [X|[]]. lia. }
    intros i k Hi Hk. rewrite (V4 i k Hi Hk). f_equal. cbn [tr]. rewrite R3. ring.
  - eapply (kb_trans [] [mblk s; mblk s1] [mblk s]); [exact HK| |intros b []|cbn; intros b [<-|[<-|[]]]; [left; left; reflexivity|right; lia]].
    eapply (kb_trans [mblk s] [mblk s1] [mblk s; mblk s1]); [exact K3|exact K4|cbn; tauto|cbn; tauto].
Qed.

(** ** The matrices [V_t^* A|_{t x s} W_s] *)
Section Collect.
Variables (ridx cidx : arr nat) (a : mat) (A : nat -> nat -> K) (gR gC : nat -> nat).
Definition cvals rb cb (p q : nat) : K := A (gR (cb_off rb + p)) (gC (cb_off cb + q)).
Definition ridx_ok rb : Prop := idx_at ridx (cb_off rb) (cb_size rb) (fun p => gR (cb_off rb + p)) (mrows a).
Definition cidx_ok cb : Prop := idx_at cidx (cb_off cb) (cb_size cb) (fun p => gC (cb_off cb + p)) (mcols a).
Definition collects (p : mat -> prog K unit) rb cb : Prop := forall D m s Ls (Q : unit -> mem K -> Prop),
  lm D m (s :: Ls) -> mrows s = cb_k rb -> mcols s = cb_k cb -> cbinit m rb -> cbinit m cb -> incl (cbmats0 rb) Ls -> incl (cbmats0 cb) Ls ->
  mval m a A -> mblk a < next m -> mblk a <> mblk s ->
  (forall m', mval m' s (gal (cbmat m) rb cb (cvals rb cb)) -> lm D m' (s :: Ls) -> kb [mblk s] m m' -> Q tt m') -> wp TT TT (p s) m Q.

Lemma idx_son (idx : arr nat) g dim cb i t : cbok cb -> cbplaced cb -> nth_error (cb_son cb) i = Some t ->
  idx_at idx (cb_off cb) (cb_size cb) (fun p => g (cb_off cb + p)) dim -> idx_at idx (cb_off t) (cb_size t) (fun p => g (cb_off t + p)) dim.
Proof.
  intros Hok Hp Ht HI p Hl. destruct (placed_son cb i t Hp Ht) as [Eo _]. assert (Hn : cb_son cb <> []) by (intros E; rewrite E in Ht; destruct i; discriminate).
  pose proof (cbok_size cb Hok Hn) as Es. destruct (nth_in _ _ _ Ht) as [Hi _]. pose proof (nsum_in (at_ cb_size (cb_son cb)) i (length (cb_son cb)) Hi) as HN. rewrite (at_nth _ _ _ _ Ht) in HN.
  rewrite Eo, <- Nat.add_assoc. apply HI. lia.
Qed.
Lemma idx_at_ext (idx : arr nat) off n f g dim : idx_at idx off n f dim -> (forall p, p < n -> f p = g p) -> idx_at idx off n g dim.
Proof. intros H E p Hp. rewrite <- (E p Hp). apply H, Hp. Qed.
Lemma E_val m X m1 cb t : cbinit m cb -> In t (cb_son cb) -> same X m m1 -> incl (cbmats0 cb) X -> mval m1 (cb_E t) (mfun m (cb_E t)) /\ In (cb_E t) X.
Proof.
  intros Hi Ht Hs HX. assert (HE : In (cb_E t) X). { apply HX. eapply son_mats; [exact Ht|]. rewrite cbmats_E. right. left. reflexivity. }
  split; [|exact HE]. eapply same_mval; [|exact Hs|exact HE]. eapply cbinit_E; eassumption.
Qed.
Lemma son_incl cb t X : In t (cb_son cb) -> incl (cbmats0 cb) X -> incl (cbmats0 t) X.
Proof. intros Ht HX. eapply incl_tran; [apply mats0_in|]. eapply incl_tran; [eapply son_mats; exact Ht|exact HX]. Qed.
Lemma init_son m cb t : cbinit m cb -> In t (cb_son cb) -> cbinit m t.
Proof. intros Hi Ht x Hx. apply Hi. eapply incb_son; eassumption. Qed.

Lemma wp_collect_leaf rb : cbok rb -> cb_son rb = [] -> ridx_ok rb -> forall cb, cbok cb -> cbplaced cb -> cidx_ok cb -> collects (collectdense_leaf ridx cidx a rb cb) rb cb.
Proof.
  intros Rok Rleaf Ridx. induction cb as [cb IH] using cb_rect'. intros Cok Cpl Cidx D m s Ls Q HL Er Ec Ri Ci Rin Cin HA Ba Na HQ.
  assert (Hs : mblk s < next m) by (eapply kb_blk; [exact HL|left; reflexivity]).
  destruct cb as [ct ck kt kb0 cV cE cl Z]. cbn [cb_k] in Ec. cbn [collectdense_leaf].
  apply wp_bind. apply wp_passert; [apply Nat.eqb_eq; exact Er|]. apply wp_bind. apply wp_passert; [apply Nat.eqb_eq; exact Ec|].
  apply wp_bind. eapply wp_clear_lm; [exact HL|left; reflexivity|]. intros m1 V1 HL1 K1. pose proof (kb_next _ _ _ K1) as M1.
  set (cb := CB ct ck kt kb0 cV cE cl Z) in *. pose proof (same_cons _ _ _ _ _ HL K1) as S1.
  assert (HA1 : mval m1 a A). { eapply mval_kb; [exact HA|exact K1|exact Ba|]. intros [E|[]]. congruence. }
  destruct cl as [|c0 cl0].
  - (* leaf *)
    destruct (leaf_V m rb Rok Ri Rleaf) as (VR & RR1 & RR2). destruct (leaf_V m cb Cok Ci eq_refl) as (VC & CC1 & CC2). cbn [cb_V cb_k cb] in VC, CC1, CC2. change (cb_size cb) with (csz ct) in *.
    assert (InR : In (cb_V rb) Ls) by (apply Rin; left; reflexivity). assert (InC : In cV Ls) by (apply Cin; left; reflexivity).
    apply wp_bind. eapply wp_init_kb; [exact HL1|]. intros s1 m2 E1 HL2 K2. apply wp_bind. eapply wp_clear_lm; [exact HL2|left; reflexivity|]. intros m3 V3 HL3 K3.
    apply wp_bind. eapply wp_init_kb; [exact HL3|]. intros s2 m4 E2 HL4 K4.
    pose proof (kb_next _ _ _ K2) as M2. pose proof (kb_next _ _ _ K3) as M3. pose proof (kb_next _ _ _ K4) as M4.
    assert (B1 : mblk s1 = next m1) by (rewrite E1; reflexivity). assert (B2 : mblk s2 = next m3) by (rewrite E2; reflexivity).
    assert (R1 : mrows s1 = cb_k rb) by (rewrite E1; reflexivity). assert (C1 : mcols s1 = csz ct) by (rewrite E1; reflexivity).
    assert (R2 : mrows s2 = cb_size rb) by (rewrite E2; reflexivity). assert (C2 : mcols s2 = csz ct) by (rewrite E2; reflexivity). clear E1 E2.
    pose proof (kb_blk _ _ _ s1 HL2 (or_introl eq_refl)) as Bs1. pose proof (kb_blk _ _ _ s2 HL4 (or_introl eq_refl)) as Bs2.
    assert (HA2 : mval m2 a A). { eapply mval_kb; [exact HA1|exact K2|lia|intros []]. }
    assert (HA3 : mval m3 a A). { eapply mval_kb; [exact HA2|exact K3|lia|]. intros [E|[]]. lia. }
    assert (HA4 : mval m4 a A). { eapply mval_kb; [exact HA3|exact K4|lia|intros []]. }
    apply wp_bind. eapply wp_gather; [exact HL4|left; reflexivity|exact R2|exact C2|exact HA4|lia|exact Ridx|exact Cidx|]. intros m5 V5 HL5 K5. cbv beta in V5.
    assert (HLs1 : lm D m1 (s :: Ls)) by exact HL1.
    assert (S5 : same Ls m m5).
    { eapply same_trans; [exact S1|]. eapply same_trans; [|eapply same_trans; [|eapply same_trans]].
      - eapply same_sub; [eapply same_new; [exact HL1|exact K2]|intros B HB; right; exact HB].
      - eapply same_sub; [eapply same_cons; [exact HL2|exact K3]|intros B HB; right; exact HB].
      - eapply same_sub; [eapply same_new; [exact HL3|exact K4]|intros B HB; right; right; exact HB].
      - eapply same_sub; [eapply same_cons; [exact HL4|exact K5]|intros B HB; right; right; exact HB]. }
    assert (HLx : lm D m5 (s1 :: s2 :: s :: Ls)) by (eapply lm_perm; [|exact HL5]; perm).
    assert (V5s1 : mval m5 s1 (fun _ _ => f0)).
    { eapply mval_kb; [|exact K5|lia|intros [E|[]]; lia]. eapply mval_kb; [exact V3|exact K4|lia|intros []]. }
    apply wp_bind. eapply (wp_addmul_lm L D m5 _ f1 true (cb_V rb) false s2 s1); [exact HL5|right; left; reflexivity| |lia|eapply same_mval; [exact VR|exact S5|exact InR]|exact V5|exact V5s1|lia|lia|lia|].
    { apply (lm_neq _ _ _ _ _ HLx). right. right. exact InR. }
    intros m6 V6 HL6 K6. pose proof (kb_next _ _ _ K5) as M5. pose proof (kb_next _ _ _ K6) as M6.
    assert (S6 : same Ls m m6). { eapply same_trans; [exact S5|]. eapply same_sub; [eapply same_cons; [exact HLx|exact K6]|intros B HB; right; right; exact HB]. }
    assert (HLy : lm D m6 (s :: s2 :: s1 :: Ls)) by (eapply lm_perm; [|exact HL6]; perm).
    assert (V6s : mval m6 s (fun _ _ => f0)).
    { eapply mval_kb; [|exact K6|lia|intros [E|[]]; lia]. eapply mval_kb; [|exact K5|lia|intros [E|[]]; lia]. eapply mval_kb; [|exact K4|lia|intros []].
      eapply mval_kb; [|exact K3|lia|intros [E|[]]; lia]. eapply mval_kb; [exact V1|exact K2|lia|intros []]. }
    apply wp_bind. eapply (wp_addmul_lm L D m6 _ f1 false s1 false cV s); [exact HL6|right; right; left; reflexivity|lia| |exact V6|eapply same_mval; [exact VC|exact S6|exact InC]|exact V6s|lia|lia|lia|].
    { apply (lm_neq _ _ _ _ _ HLy). right. right. exact InC. }
    intros m7 V7 HL7 K7. apply wp_bind. eapply wp_uninit_kb; [exact HL7|]. intros m8 HL8 K8. eapply wp_uninit_kb; [exact HL8|]. intros m9 HL9 K9.
    pose proof (kb_next _ _ _ K7) as M7. pose proof (kb_next _ _ _ K8) as M8. apply HQ; [|exact HL9|].
    + assert (V9 : mval m9 s (fun i k => f0 + f1 * sum (mcols s1) (fun j => tr false (fun i0 k0 => f0 + f1 * sum (mrows (cb_V rb)) (fun j0 => tr true (cbmat m rb) i0 j0 * tr false (fun i1 j1 => A (gR (cb_off rb + i1)) (gC (cb_off cb + j1))) j0 k0)) i j * tr false (cbmat m cb) j k))%F).
      { eapply mval_kb; [|exact K9|lia|intros [E|[]]; lia]. eapply mval_kb; [exact V7|exact K8|lia|intros [E|[]]; lia]. }
      intros i k Hi Hk. rewrite (V9 i k Hi Hk). f_equal. cbn [tr]. unfold gal. rewrite C1, RR1. change (cb_size cb) with (csz ct).
      transitivity (sum (csz ct) (fun q => sum (cb_size rb) (fun p => fconj (cbmat m rb p i) * cvals rb cb p q * cbmat m cb q k)))%F; [|apply (sum_swap L)].
      transitivity (sum (csz ct) (fun q => (f0 + f1 * sum (cb_size rb) (fun p => fconj (cbmat m rb p i) * cvals rb cb p q)) * cbmat m cb q k)%F); [unfold cvals; ring|].
      apply sum_ext. intros q _. transitivity (sum (cb_size rb) (fun p => fconj (cbmat m rb p i) * cvals rb cb p q) * cbmat m cb q k)%F; [ring|]. rewrite <- (sum_mul_r L). reflexivity.
    + assert (Hbs : forall b, In b [mblk s2; mblk s1; mblk s] -> In b [mblk s] \/ next m <= b).
      { cbn. intros b [<-|[<-|[<-|[]]]]; auto; right; lia. }
      set (bs := [mblk s2; mblk s1; mblk s]) in *. assert (Kx : forall b m' m'', In b bs -> kb [b] m' m'' -> kb bs m' m'').
      { intros b m' m'' Hb HK. eapply kb_mono; [exact HK|]. intros x [<-|[]]. left. exact Hb. }
      assert (Ky : forall m' m'', kb [] m' m'' -> kb bs m' m''). { intros m' m'' HK. eapply kb_mono; [exact HK|]. intros x []. }
      assert (Kt : forall m' m'' m''', kb bs m' m'' -> kb bs m'' m''' -> kb bs m' m'''). { intros m' m'' m''' H1 H3. eapply kb_trans; [exact H1|exact H3|auto|auto]. }
      assert (I1 : In (mblk s1) bs) by (cbn; auto). assert (I2 : In (mblk s2) bs) by (cbn; auto). assert (I3 : In (mblk s) bs) by (cbn; auto).
      assert (Kall : kb bs m m9).
      { eapply Kt; [apply (Kx _ _ _ I3 K1)|]. eapply Kt; [apply Ky, K2|]. eapply Kt; [apply (Kx _ _ _ I1 K3)|]. eapply Kt; [apply Ky, K4|]. eapply Kt; [apply (Kx _ _ _ I2 K5)|].
        eapply Kt; [apply (Kx _ _ _ I1 K6)|]. eapply Kt; [apply (Kx _ _ _ I3 K7)|]. eapply Kt; [apply (Kx _ _ _ I2 K8)|]. apply (Kx _ _ _ I1 K9). }
      eapply (kb_trans [] bs [mblk s]); [apply kb_refl|exact Kall|intros b []|exact Hbs].
  - remember (c0 :: cl0) as cl eqn:Ecl. assert (Hn : cb_son cb <> []) by (cbn [cb cb_son]; rewrite Ecl; discriminate).
    cbv zeta.
    eapply (wp_sonsS (fun j (_ : unit) m2 => mval m2 s (fun r c1 => sum j (fun i => onth (fun t =>
        sum (cb_k t) (fun x => gal (cbmat m) rb t (fun p q => cvals rb cb p (nsum i (at_ cb_size cl) + q)%nat) r x * mfun m (cb_E t) x c1)%F) cl i)) /\ lm D m2 (s :: Ls) /\ kb [mblk s] m m2)).
    + split; [exact V1|]. split; [exact HL1|exact K1].
    + intros i [t p] [] m2 Hi (V2 & HL2 & K2). rewrite nth_error_map in Hi. destruct (nth_error cl i) as [t'|] eqn:Ht; [|discriminate]. cbn in Hi. injection Hi as -> <-. cbn [fst snd].
      assert (Hin : In t (cb_son cb)) by exact (nth_error_In _ _ Ht). pose proof (kb_next _ _ _ K2) as M2. pose proof (same_cons _ _ _ _ _ HL K2) as S2.
      apply wp_bind. eapply wp_init_kb; [exact HL2|]. intros s1 m3 E1 HL3 K3. pose proof (kb_next _ _ _ K3) as M3.
      assert (B1 : mblk s1 = next m2) by (rewrite E1; reflexivity). assert (R1 : mrows s1 = cb_k rb) by (rewrite E1; reflexivity). assert (C1 : mcols s1 = cb_k t) by (rewrite E1; reflexivity). clear E1.
      assert (S3 : same Ls m m3). { eapply same_trans; [exact S2|]. eapply same_sub; [eapply same_new; [exact HL2|exact K3]|intros B HB; right; exact HB]. }
      destruct (cbok_son cb t Cok Hin) as (Tok & ER & EC). change (cb_k cb) with ck in EC. destruct (placed_son cb i t Cpl Ht) as [To Tpl].
      apply wp_bind. eapply (IH t Hin Tok Tpl (idx_son cidx gC _ cb i t Cok Cpl Ht Cidx) D m3 s1 (s :: Ls)).
      { exact HL3. } { exact R1. } { exact C1. } { eapply same_init; [exact Ri|exact S3|exact Rin]. } { eapply same_init; [eapply init_son; [exact Ci|exact Hin]|exact S3|eapply son_incl; [exact Hin|exact Cin]]. }
      { apply incl_tl, Rin. } { apply incl_tl. eapply son_incl; [exact Hin|exact Cin]. }
      { eapply mval_kb; [|exact K3|lia|intros []]. eapply mval_kb; [exact HA|exact K2|exact Ba|]. intros [E|[]]. congruence. } { lia. } { lia. }
      intros m4 V4 HL4 K4. pose proof (kb_next _ _ _ K4) as M4.
      assert (S4 : same Ls m m4). { eapply same_trans; [exact S3|]. eapply same_sub; [eapply same_cons; [exact HL3|exact K4]|intros B HB; right; exact HB]. }
      destruct (E_val m Ls m4 cb t Ci Hin S4 Cin) as (VE & InE).
      eapply (acc_r D m2 m4 s s1 Ls (cb_E t)); [exact HL4|exact InE|exact B1|lia| |exact VE|exact V4| |lia|lia|lia|].
      { eapply (kb_trans [] [mblk s1] []); [exact K3|exact K4|intros b []|]. intros b [<-|[]]. right. lia. }
      { eapply mval_kb; [|exact K4|lia|intros [E|[]]; lia]. eapply mval_kb; [exact V2|exact K3|lia|intros []]. }
      intros m5 V5 HL5 K5. split; [|split; [exact HL5|eapply kb_trans; [exact K2|exact K5|auto|auto]]].
      intros r c1 Hr Hc1. rewrite (V5 r c1 Hr Hc1). f_equal. cbn [sum]. rewrite (onth_nth _ _ _ _ Ht), C1. f_equal. apply sum_ext. intros x _. f_equal.
      apply gal_ext.
      * intros p q. eapply same_cbmat; [exact S3|exact Rin].
      * intros p q. eapply same_cbmat; [exact S3|]. eapply son_incl; [exact Hin|exact Cin].
      * intros p q _ _. unfold cvals. rewrite To. cbn [cb cb_son]. rewrite Nat.add_assoc. reflexivity.
    + intros [] m2 (V2 & HL2 & K2). rewrite map_length in V2. apply HQ; [|exact HL2|exact K2].
      intros r c1 Hr Hc1. rewrite (V2 r c1 Hr Hc1). f_equal. symmetry. apply (gal_col m rb cb); [exact Cok|exact Hn].
Qed.
Lemma row_loop rb cb : cbok rb -> cbplaced rb -> cb_son rb <> [] ->
  (forall t, In t (cb_son rb) -> collects (collectdense_h2matrix ridx cidx a t cb) t cb) ->
  forall D m s Ls (Q : unit -> mem K -> Prop),
  lm D m (s :: Ls) -> mrows s = cb_k rb -> mcols s = cb_k cb -> cbinit m rb -> cbinit m cb -> incl (cbmats0 rb) Ls -> incl (cbmats0 cb) Ls ->
  mval m a A -> mblk a < next m -> mblk a <> mblk s -> mval m s (fun _ _ => f0) ->
  (forall m', mval m' s (gal (cbmat m) rb cb (cvals rb cb)) -> lm D m' (s :: Ls) -> kb [mblk s] m m' -> Q tt m') ->
  wp TT TT (sons (map (fun r => (r, collectdense_h2matrix ridx cidx a r)) (cb_son rb)) (fun i r _ =>
                  s2 <- init_amatrix (cb_k (fst r)) (cb_k cb) ;;
                  snd r cb s2 ;;;
                  addmul_amatrix f1 true (cb_E (fst r)) false s2 s ;;;
                  uninit_amatrix s2) tt) m Q.
Proof.
  intros Rok Rpl Hn IH D m s Ls Q HL Er Ec Ri Ci Rin Cin HA Ba Na V0 HQ.
  assert (Hs : mblk s < next m) by (eapply kb_blk; [exact HL|left; reflexivity]).
  eapply (wp_sonsS (fun j (_ : unit) m2 => mval m2 s (fun r c1 => sum j (fun i => onth (fun t =>
    sum (cb_k t) (fun x => fconj (mfun m (cb_E t) x r) * gal (cbmat m) t cb (fun p q => cvals rb cb (nsum i (at_ cb_size (cb_son rb)) + p)%nat q) x c1)%F) (cb_son rb) i)) /\ lm D m2 (s :: Ls) /\ kb [mblk s] m m2)).
  + split; [exact V0|]. split; [exact HL|apply kb_refl].
  + intros i [t p] [] m2 Hi (V2 & HL2 & K2). rewrite nth_error_map in Hi. destruct (nth_error (cb_son rb) i) as [t'|] eqn:Ht; [|discriminate]. cbn in Hi. injection Hi as -> <-. cbn [fst snd].
    pose proof (nth_error_In _ _ Ht) as Hin. pose proof (kb_next _ _ _ K2) as M2. pose proof (same_cons _ _ _ _ _ HL K2) as S2.
    apply wp_bind. eapply wp_init_kb; [exact HL2|]. intros s1 m3 E1 HL3 K3. pose proof (kb_next _ _ _ K3) as M3.
    assert (B1 : mblk s1 = next m2) by (rewrite E1; reflexivity). assert (R1 : mrows s1 = cb_k t) by (rewrite E1; reflexivity). assert (C1 : mcols s1 = cb_k cb) by (rewrite E1; reflexivity). clear E1.
    assert (S3 : same Ls m m3). { eapply same_trans; [exact S2|]. eapply same_sub; [eapply same_new; [exact HL2|exact K3]|intros B HB; right; exact HB]. }
    destruct (cbok_son rb t Rok Hin) as (Tok & ER & EC). destruct (placed_son rb i t Rpl Ht) as [To Tpl].
    apply wp_bind. eapply (IH t Hin D m3 s1 (s :: Ls)).
    { exact HL3. } { exact R1. } { exact C1. } { eapply same_init; [eapply init_son; [exact Ri|exact Hin]|exact S3|eapply son_incl; [exact Hin|exact Rin]]. } { eapply same_init; [exact Ci|exact S3|exact Cin]. }
    { apply incl_tl. eapply son_incl; [exact Hin|exact Rin]. } { apply incl_tl, Cin. }
    { eapply mval_kb; [|exact K3|lia|intros []]. eapply mval_kb; [exact HA|exact K2|exact Ba|]. intros [E|[]]. congruence. } { lia. } { lia. }
    intros m4 V4 HL4 K4. pose proof (kb_next _ _ _ K4) as M4.
    assert (S4 : same Ls m m4). { eapply same_trans; [exact S3|]. eapply same_sub; [eapply same_cons; [exact HL3|exact K4]|intros B HB; right; exact HB]. }
    destruct (E_val m Ls m4 rb t Ri Hin S4 Rin) as (VE & InE).
    eapply (acc_l D m2 m4 s s1 Ls (cb_E t)); [exact HL4|exact InE|exact B1|lia| |exact VE|exact V4| |lia|lia|lia|].
    { eapply (kb_trans [] [mblk s1] []); [exact K3|exact K4|intros b []|]. intros b [<-|[]]. right. lia. }
    { eapply mval_kb; [|exact K4|lia|intros [E|[]]; lia]. eapply mval_kb; [exact V2|exact K3|lia|intros []]. }
    intros m5 V5 HL5 K5. split; [|split; [exact HL5|eapply kb_trans; [exact K2|exact K5|auto|auto]]].
    intros r c1 Hr Hc1. rewrite (V5 r c1 Hr Hc1). f_equal. cbn [sum]. rewrite (onth_nth _ _ _ _ Ht), R1. f_equal. apply sum_ext. intros x _. f_equal.
    apply gal_ext.
    * intros p q. eapply same_cbmat; [exact S3|]. eapply son_incl; [exact Hin|exact Rin].
    * intros p q. eapply same_cbmat; [exact S3|exact Cin].
    * intros p q _ _. unfold cvals. rewrite To, Nat.add_assoc. reflexivity.
  + intros [] m2 (V2 & HL2 & K2). rewrite map_length in V2. apply HQ; [|exact HL2|exact K2].
    intros r c1 Hr Hc1. rewrite (V2 r c1 Hr Hc1). f_equal. symmetry. apply (gal_row m rb cb); [exact Rok|exact Hn].
Qed.

Lemma wp_collect rb : cbok rb -> cbplaced rb -> ridx_ok rb -> forall cb, cbok cb -> cbplaced cb -> cidx_ok cb -> collects (collectdense_h2matrix ridx cidx a rb cb) rb cb.
Proof.
  induction rb as [rb IH] using cb_rect'. intros Rok Rpl Ridx cb Cok Cpl Cidx D m s Ls Q HL Er Ec Ri Ci Rin Cin HA Ba Na HQ.
  assert (Hs : mblk s < next m) by (eapply kb_blk; [exact HL|left; reflexivity]).
  destruct rb as [rt rk kt kb0 rV rE rl Z]. set (rb := CB rt rk kt kb0 rV rE rl Z) in *. destruct rl as [|r0 rl0].
  { exact (wp_collect_leaf rb Rok eq_refl Ridx cb Cok Cpl Cidx D m s Ls Q HL Er Ec Ri Ci Rin Cin HA Ba Na HQ). }
  assert (Hn : cb_son rb <> []) by discriminate. change (cb_k rb) with rk in Er.
  assert (IH' : forall c t, cbok c -> cbplaced c -> cidx_ok c -> In t (cb_son rb) -> collects (collectdense_h2matrix ridx cidx a t c) t c).
  { intros c t Cok' Cpl' Cidx' Ht. destruct (In_nth_error _ _ Ht) as (i & Hi). apply IH; [exact Ht|apply (cbok_son rb t Rok Ht)|apply (placed_son rb i t Rpl Hi)|exact (idx_son ridx gR _ rb i t Rok Rpl Hi Ridx)|exact Cok'|exact Cpl'|exact Cidx']. }
  clear IH. change (collectdense_h2matrix ridx cidx a rb cb s) with (
          let rec := map (fun r => (r, collectdense_h2matrix (K := K) ridx cidx a r)) (cb_son rb) in
          passert (mrows s =? rk) ;;;
          passert (mcols s =? cb_k cb) ;;;
          clear_amatrix s ;;;
          match cb_son cb with
          | (_ :: _) as cl =>
              sons cl (fun j c _ =>
                s1 <- init_amatrix rk (cb_k c) ;;
                clear_amatrix s1 ;;;
                sons rec (fun i r _ =>
                  s2 <- init_amatrix (cb_k (fst r)) (cb_k c) ;;
                  snd r c s2 ;;;
                  addmul_amatrix f1 true (cb_E (fst r)) false s2 s1 ;;;
                  uninit_amatrix s2) tt ;;;
                addmul_amatrix f1 false s1 false (cb_E c) s ;;;
                uninit_amatrix s1) tt
          | [] =>
              sons rec (fun i r _ =>
                s2 <- init_amatrix (cb_k (fst r)) (cb_k cb) ;;
                snd r cb s2 ;;;
                addmul_amatrix f1 true (cb_E (fst r)) false s2 s ;;;
                uninit_amatrix s2) tt
          end). cbv zeta.
  apply wp_bind. apply wp_passert; [apply Nat.eqb_eq; exact Er|]. apply wp_bind. apply wp_passert; [apply Nat.eqb_eq; exact Ec|].
  apply wp_bind. eapply wp_clear_lm; [exact HL|left; reflexivity|]. intros m1 V1 HL1 K1. pose proof (kb_next _ _ _ K1) as M1.
  pose proof (same_cons _ _ _ _ _ HL K1) as S1.
  assert (HA1 : mval m1 a A). { eapply mval_kb; [exact HA|exact K1|exact Ba|]. intros [E|[]]. congruence. }
  destruct (cb_son cb) as [|c0 cl0] eqn:Ecl.
  - eapply (row_loop rb cb Rok Rpl Hn (fun t Ht => IH' cb t Cok Cpl Cidx Ht) D m1 s Ls).
    { exact HL1. } { exact Er. } { exact Ec. } { eapply same_init; [exact Ri|exact S1|exact Rin]. } { eapply same_init; [exact Ci|exact S1|exact Cin]. } { exact Rin. } { exact Cin. }
    { exact HA1. } { lia. } { exact Na. } { exact V1. }
    intros m2 V2 HL2 K2. apply HQ; [|exact HL2|eapply kb_trans; [exact K1|exact K2|auto|auto]].
    intros r c1 Hr Hc1. rewrite (V2 r c1 Hr Hc1). f_equal. apply gal_ext; [| |reflexivity]; intros p q; eapply same_cbmat; eassumption.
  - rewrite <- Ecl. assert (Hnc : cb_son cb <> []) by (rewrite Ecl; discriminate). clear Ecl c0 cl0.
    eapply (wp_sonsS (fun j (_ : unit) m2 => mval m2 s (fun r c1 => sum j (fun i => onth (fun t =>
        sum (cb_k t) (fun x => gal (cbmat m) rb t (fun p q => cvals rb cb p (nsum i (at_ cb_size (cb_son cb)) + q)%nat) r x * mfun m (cb_E t) x c1)%F) (cb_son cb) i)) /\ lm D m2 (s :: Ls) /\ kb [mblk s] m m2)).
    + split; [exact V1|]. split; [exact HL1|exact K1].
    + intros i t [] m2 Ht (V2 & HL2 & K2).
      assert (Hin : In t (cb_son cb)) by exact (nth_error_In _ _ Ht). pose proof (kb_next _ _ _ K2) as M2. pose proof (same_cons _ _ _ _ _ HL K2) as S2.
      apply wp_bind. eapply wp_init_kb; [exact HL2|]. intros s1 m3 E1 HL3 K3. pose proof (kb_next _ _ _ K3) as M3.
      assert (B1 : mblk s1 = next m2) by (rewrite E1; reflexivity). assert (R1 : mrows s1 = rk) by (rewrite E1; reflexivity). assert (C1 : mcols s1 = cb_k t) by (rewrite E1; reflexivity). clear E1.
      pose proof (kb_blk _ _ _ s1 HL3 (or_introl eq_refl)) as Bs1.
      apply wp_bind. eapply wp_clear_lm; [exact HL3|left; reflexivity|]. intros m3' V3' HL3' K3'. pose proof (kb_next _ _ _ K3') as M3'.
      assert (S3 : same Ls m m3'). { eapply same_trans; [exact S2|]. eapply same_trans; [eapply same_sub; [eapply same_new; [exact HL2|exact K3]|intros B HB; right; exact HB]|].
        eapply same_sub; [eapply same_cons; [exact HL3|exact K3']|intros B HB; right; exact HB]. }
      destruct (cbok_son cb t Cok Hin) as (Tok & ER & EC). destruct (placed_son cb i t Cpl Ht) as [To Tpl].
      apply wp_bind. eapply (row_loop rb t Rok Rpl Hn (fun r0 Hr0 => IH' t r0 Tok Tpl (idx_son cidx gC _ cb i t Cok Cpl Ht Cidx) Hr0) D m3' s1 (s :: Ls)).
      { exact HL3'. } { exact R1. } { exact C1. } { eapply same_init; [exact Ri|exact S3|exact Rin]. } { eapply same_init; [eapply init_son; [exact Ci|exact Hin]|exact S3|eapply son_incl; [exact Hin|exact Cin]]. }
      { apply incl_tl, Rin. } { apply incl_tl. eapply son_incl; [exact Hin|exact Cin]. }
      { eapply mval_kb; [|exact K3'|lia|intros [E|[]]; lia]. eapply mval_kb; [|exact K3|lia|intros []]. eapply mval_kb; [exact HA|exact K2|exact Ba|]. intros [E|[]]. congruence. } { lia. } { lia. } { exact V3'. }
      intros m4 V4 HL4 K4. pose proof (kb_next _ _ _ K4) as M4.
      assert (S4 : same Ls m m4). { eapply same_trans; [exact S3|]. eapply same_sub; [eapply same_cons; [exact HL3'|exact K4]|intros B HB; right; exact HB]. }
      destruct (E_val m Ls m4 cb t Ci Hin S4 Cin) as (VE & InE).
      eapply (acc_r D m2 m4 s s1 Ls (cb_E t)); [exact HL4|exact InE|exact B1|lia| |exact VE|exact V4| |lia|lia|lia|].
      { eapply (kb_trans [] [mblk s1] []); [exact K3| |intros b []|intros b [<-|[]]; right; lia]. eapply kb_trans; [exact K3'|exact K4|auto|auto]. }
      { eapply mval_kb; [|exact K4|lia|intros [E|[]]; lia]. eapply mval_kb; [|exact K3'|lia|intros [E|[]]; lia]. eapply mval_kb; [exact V2|exact K3|lia|intros []]. }
      intros m5 V5 HL5 K5. split; [|split; [exact HL5|eapply kb_trans; [exact K2|exact K5|auto|auto]]].
      intros r c1 Hr Hc1. rewrite (V5 r c1 Hr Hc1). f_equal. cbn [sum]. rewrite (onth_nth _ _ _ _ Ht), C1. f_equal. apply sum_ext. intros x _. f_equal.
      apply gal_ext.
      * intros p q. eapply same_cbmat; [exact S3|exact Rin].
      * intros p q. eapply same_cbmat; [exact S3|]. eapply son_incl; [exact Hin|exact Cin].
      * intros p q _ _. unfold cvals. rewrite To, Nat.add_assoc. reflexivity.
    + intros [] m2 (V2 & HL2 & K2). apply HQ; [|exact HL2|exact K2].
      intros r c1 Hr Hc1. rewrite (V2 r c1 Hr Hc1). f_equal. symmetry. apply (gal_col m rb cb); [exact Cok|exact Hnc].
Qed.
End Collect.
End P.
