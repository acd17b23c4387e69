(** * Products of H-matrices with dense matrices (model: Harith.v) *)
From Coq Require Import Arith Lia List Bool Ring.
From Verif Require Import Fld Ord Prog Arr View Spec Loop FactorSpec Cluster Block BlockP Avector AvectorP Amatrix AmatrixP AmatrixP2 Norm NormP
  Factor FactorP FactorP2 LrP3 Rkmatrix RkSpec RkP Hmatrix HmSpec HmP HmP2 HmP3 Harith HaSpec HaP HaP2.
Import ListNotations.

(** Rows [off .. off + k) of a matrix or of its adjoint *)
Definition tsub (t : bool) (x : mat) (off k : nat) : mat := if t then subm x 0 (mrows x) off k else subm x off k 0 (mcols x).

Lemma trows_tsub t x off k : trows t (tsub t x off k) = k. Proof. destruct t; reflexivity. Qed.
Lemma tcols_tsub t x off k : tcols t (tsub t x off k) = tcols t x. Proof. destruct t; reflexivity. Qed.
Lemma mwf_tsub (t : bool) x off k : mwf x -> off + k <= trows t x -> mwf (tsub t x off k).
Proof. intros Hw Hk. destruct t; apply mwf_subm; try assumption; unfold trows in Hk; lia. Qed.
Lemma in_tsub (t : bool) x off k a : off + k <= trows t x -> inm (tsub t x off k) a -> inm x a.
Proof. intros Hk Ha. unfold trows in Hk. destruct t; (eapply inm_subm; [| |exact Ha]); lia. Qed.
Lemma tsub_disj (t : bool) x off k off' k' : mwf x -> off + k <= trows t x -> off' + k' <= trows t x -> off + k <= off' \/ off' + k' <= off ->
  disj (inm (tsub t x off k)) (inm (tsub t x off' k')).
Proof. intros Hw H1 H2 H3. unfold trows in H1, H2. destruct t; apply disj_subm; try assumption; lia. Qed.

Section HaP3.
Context {K : fops} {G : ofops} (L : ring_laws K).
Add Ring KringHa3 : (rl_ring K L).
Implicit Types (m : mem K) (R W : addr -> Prop) (h s : hmatrix G) (x y z : mat) (D F H A B : nat -> nat -> K).

(** The matrix [x], or its adjoint, is [F]. *)
Definition tval (t : bool) m x F : Prop := mval m x (tr t F).

Lemma tr_tr (t : bool) F i j : tr t (tr t F) i j = F i j.
Proof. destruct t; cbn [tr]; [apply (rl_conj_conj K L)|reflexivity]. Qed.
Lemma tval_ext (t : bool) m x F F' : tval t m x F -> (forall p c, p < trows t x -> c < tcols t x -> F' p c = F p c) -> tval t m x F'.
Proof. intros Hx E. eapply mval_ext; [exact Hx|]. intros i j Hi Hj. unfold trows, tcols in E. destruct t; cbn [tr]; [f_equal|]; symmetry; apply E; assumption. Qed.
Lemma tval_keeps (t : bool) (W : addr -> Prop) m m' x F : tval t m x F -> keeps W m m' -> disj (inm x) W -> tval t m' x F.
Proof. intros Hx Hk Hd. eapply mval_keeps; eassumption. Qed.
Lemma tval_tsub (t : bool) m x off k F : tval t m x F -> off + k <= trows t x -> tval t m (tsub t x off k) (fun p c => F (off + p) c).
Proof.
  intros Hx Hk. unfold trows in Hk. destruct t; unfold tval, tsub.
  - eapply mval_ext; [apply (mval_subm m x _ 0 (mrows x) off k Hx); lia|]. intros i j Hi Hj. cbn [tr]. reflexivity.
  - eapply mval_ext; [apply (mval_subm m x _ off k 0 (mcols x) Hx); lia|]. intros i j Hi Hj. cbn [tr]. reflexivity.
Qed.
Lemma tval_back (t : bool) m m' x off k F F' : mwf x -> tval t m x F -> off + k <= trows t x -> tval t m' (tsub t x off k) F' ->
  keeps (inm (tsub t x off k)) m m' -> tval t m' x (fun p c => if inb off k p then F' (p - off) c else F p c).
Proof.
  intros Hw Hx Hk Hx' Hkp. unfold trows in Hk. destruct t; unfold tval, tsub in *.
  - eapply mval_ext; [eapply mval_subm_back; [exact Hw|exact Hx| | |exact Hx'|exact Hkp]; lia|]. intros i j Hi Hj; cbv beta. cbn [tr]. unfold inb.
    rewrite (proj2 (Nat.leb_le 0 i)), (proj2 (Nat.ltb_lt i (0 + mrows x))) by lia. cbn [andb]. rewrite Nat.sub_0_r. destruct ((off <=? j) && (j <? off + k)); reflexivity.
  - eapply mval_ext; [eapply mval_subm_back; [exact Hw|exact Hx| | |exact Hx'|exact Hkp]; lia|]. intros i j Hi Hj; cbv beta. cbn [tr]. unfold inb.
    rewrite (proj2 (Nat.leb_le 0 j)), (proj2 (Nat.ltb_lt j (0 + mcols x))) by lia. rewrite !andb_true_r. rewrite Nat.sub_0_r. destruct ((off <=? i) && (i <? off + k)); reflexivity.
Qed.
Lemma wp_subpart R W (t : bool) x k off m (Q : mat -> mem K -> Prop) : off + k <= trows t x -> Q (tsub t x off k) m -> wp R W (subpart t x k off) m Q.
Proof. intros Hk HQ. unfold trows in Hk. destruct t; unfold subpart; apply wp_init_sub_amatrix; try lia; exact HQ. Qed.
Lemma wp_tsub_done R W (t : bool) x k off m (Q : unit -> mem K -> Prop) : Q tt m -> wp R W (uninit_amatrix (tsub t x off k)) m Q.
Proof. intros HQ. destruct t; exact HQ. Qed.

Lemma mval_old m x F a : mval m x F -> inm x a -> fst a < next m.
Proof.
  intros Hx (i & j & Hi & Hj & ->). destruct (Nat.lt_ge_cases (fst (ma x i j)) (next m)) as [E|E]; [exact E|].
  pose proof (Hx i j Hi Hj) as Hv. rewrite (get_fresh m _ E) in Hv. discriminate.
Qed.

(** [op(z) += alpha A op(y)] for dense matrices *)
Lemma wp_addmul_dense R W alpha (t : bool) (a : mat) (yt : bool) y (zt : bool) z D F H m (Q : unit -> mem K -> Prop) :
  mwf z -> mval m a D -> tval yt m y F -> tval zt m z H ->
  disj (inm a) (inm z) -> disj (inm y) (inm z) -> rdok R W (inm a) -> rdok R W (inm y) -> wrok W (inm z) ->
  trows zt z = (if t then mcols a else mrows a) -> trows yt y = (if t then mrows a else mcols a) -> tcols yt y = tcols zt z ->
  (forall m', tval zt m' z (fun p c => H p c + alpha * sum (trows yt y) (fun q => tr t D p q * F q c))%F -> keeps (inm z) m m' -> Q tt m') ->
  wp R W (if zt then addmul_amatrix (fconj alpha) (negb yt) y (negb t) a z else addmul_amatrix alpha t a yt y z) m Q.
Proof.
  intros Hw Ha Hy Hz Daz Dyz Ra Ry Wz Ez Ey Ec HQ. unfold trows, tcols in Ez, Ey, Ec. destruct zt.
  - eapply (wp_addmul_amatrix L R W (fconj alpha) (negb yt) y (negb t) a z); try eassumption; try (destruct yt, t; cbn [negb] in *; lia).
    intros m' Hz' Hk'. apply HQ; [|exact Hk']. eapply mval_ext; [exact Hz'|]. intros c p Hc Hp; cbv beta.
    rewrite (proj2 (Nat.ltb_lt c _)) by (destruct yt; cbn [negb]; lia). rewrite (proj2 (Nat.ltb_lt p _)) by (destruct t; cbn [negb]; lia). cbn [andb tr].
    rewrite (rl_conj_add K L), (rl_conj_mul K L). f_equal. f_equal. rewrite (sum_conj L). unfold trows.
    destruct yt; cbn [negb]; apply sum_ext; intros q Hq; rewrite (rl_conj_mul K L); destruct t; cbn [negb tr]; rewrite ?(rl_conj_conj K L); ring.
  - eapply (wp_addmul_amatrix L R W alpha t a yt y z); try eassumption; try (destruct yt, t; lia).
    intros m' Hz' Hk'. apply HQ; [|exact Hk']. eapply mval_ext; [exact Hz'|]. intros p c Hp Hc; cbv beta.
    rewrite (proj2 (Nat.ltb_lt p _)) by (destruct t; lia). rewrite (proj2 (Nat.ltb_lt c _)) by (destruct yt; lia). cbn [andb tr].
    f_equal. f_equal. unfold trows. destruct t, yt; rewrite Ey || idtac; apply sum_ext; intros q Hq; cbn [tr]; rewrite ?(rl_conj_conj K L); reflexivity.
Qed.

(** [op(z) += alpha A B^* op(y)] *)
Lemma wp_addmul_fac R W alpha (A B : mat) (yt : bool) y (zt : bool) z k FA FB F H m (Q : unit -> mem K -> Prop) :
  mwf z -> mval m A FA -> mval m B FB -> mcols A = k -> mcols B = k -> tval yt m y F -> tval zt m z H ->
  disj (inm A) (inm z) -> disj (inm B) (inm z) -> disj (inm y) (inm z) -> rdok R W (inm A) -> rdok R W (inm B) -> rdok R W (inm y) -> wrok W (inm z) ->
  trows zt z = mrows A -> trows yt y = mrows B -> tcols yt y = tcols zt z ->
  (forall m', tval zt m' z (fun p c => H p c + alpha * sum (trows yt y) (fun q => lowrank k FA FB p q * F q c))%F -> keeps (inm z) m m' -> Q tt m') ->
  wp R W (by_ <- init_amatrix k (if yt then mrows y else mcols y) ;;
    clear_amatrix by_ ;;;
    addmul_amatrix f1 true B yt y by_ ;;;
    (if zt then addmul_amatrix (fconj alpha) true by_ true A z else addmul_amatrix alpha false A false by_ z) ;;;
    uninit_amatrix by_) m Q.
Proof.
  intros Hw HA HB EA EB Hy Hz DAz DBz Dyz RA RB Ry Wz Ez Ey Ec HQ.
  pose proof (wp_init_amatrix R W k (if yt then mrows y else mcols y) m (fun (A : mat) m1 => mwf A /\ malloc m1 A)) as HI.
  unfold init_amatrix, palloc in HI |- *. cbn [bind wp] in HI |- *.
  destruct HI as [HwT HmT]; [intros; split; assumption|].
  set (T := Mat (next m) 0 k k (if yt then mrows y else mcols y) true) in *. assert (ET : T = Mat (next m) 0 k k (if yt then mrows y else mcols y) true) by reflexivity. clearbody T.
  assert (Ina : forall a, inm T a -> fst a = next m) by (intros a (i & j & _ & _ & ->); rewrite ET; reflexivity).
  assert (Old : forall (X : mat) FX a, mval m X FX -> inm X a -> fst a <> next m) by (intros X FX a HX Ha E; pose proof (mval_old m X FX a HX Ha); lia).
  assert (Hall : forall n (X : mat) FX, mval m X FX -> mval (alloc m n) X FX).
  { intros n X FX HX i j Hi Hj. rewrite get_alloc_old; [apply HX; assumption|]. eapply Old; [exact HX|]. exists i, j; auto. }
  set (W1 := fun a : addr => W a \/ fst a = next m) in *.
  assert (WT : wrok W1 (inm T)) by (intros a Ha; right; apply Ina, Ha).
  assert (RW : forall P : addr -> Prop, rdok R W P -> rdok R W1 P) by (intros P HP a Ha; destruct (HP a Ha); [left; assumption|right; left; assumption]).
  apply wp_bind. apply wp_clear_amatrix; [exact HwT|exact HmT|exact WT|]. intros m1 HT1 Hk1. pose proof (proj1 Hk1) as N1. cbn [alloc next] in N1. apply keeps_alloc in Hk1.
  assert (Dn : forall (X : mat) FX, mval m X FX -> disj (inm X) (inm T)).
  { intros X FX HX a Ha Hb. apply (Old X FX a HX Ha). apply Ina, Hb. }
  assert (Hk1' : keeps (fun a => fst a = next m) m m1).
  { eapply keeps_mono; [|exact Hk1]. intros a [Ha|Ha]; [apply Ina, Ha|exact Ha]. }
  assert (Up : forall (X : mat) FX m2, mval m X FX -> keeps (fun a => fst a = next m) m m2 -> mval m2 X FX).
  { intros X FX m2 HX Hk. eapply mval_keeps; [exact HX|exact Hk|]. intros a Ha E. exact (Old X FX a HX Ha E). }
  assert (ERT : mrows T = k) by (rewrite ET; reflexivity). assert (ECT : mcols T = tcols yt y) by (rewrite ET; reflexivity).
  apply wp_bind. eapply (wp_addmul_amatrix L R W1 f1 true B yt y T); [exact HwT|exact (Up B FB m1 HB Hk1')|exact (Up y _ m1 Hy Hk1')|exact HT1| | | | | | | | |].
  all: try (first [exact (Dn B FB HB)|exact (Dn y _ Hy)|exact (RW _ RB)|exact (RW _ Ry)|exact WT]).
  all: try (unfold trows, tcols in *; destruct yt; lia).
  intros m2 HT2 Hk2.
  assert (Hk2' : keeps (fun a => fst a = next m) m m2).
  { eapply keeps_trans; [exact Hk1'|]. eapply keeps_mono; [|exact Hk2]. exact Ina. }
  apply wp_bind.
  assert (HT2' : tval false m2 T (fun p c => sum (mrows B) (fun q => fconj (FB q p) * F q c))%F).
  { eapply mval_ext; [exact HT2|]. intros i c Hi Hc; cbv beta. rewrite (proj2 (Nat.ltb_lt i _)) by lia.
    rewrite (proj2 (Nat.ltb_lt c _)) by (unfold tcols in ECT; destruct yt; lia). cbn [andb tr].
    transitivity (sum (mrows B) (fun q => tr true FB i q * tr yt (tr yt F) q c))%F.
    - ring_simplify. reflexivity.
    - apply sum_ext. intros q Hq. rewrite tr_tr. reflexivity. }
  eapply (wp_addmul_dense R W1 alpha false A false T zt z FA _ H m2); [exact Hw|exact (Up A FA m2 HA Hk2')|exact HT2'|exact (Up z _ m2 Hz Hk2')| | | | | | | | |].
  - exact DAz.
  - intros a Ha Hb. exact (Dn z _ Hz a Hb Ha).
  - exact (RW _ RA).
  - intros a Ha. right. apply WT, Ha.
  - intros a Ha. left. apply Wz, Ha.
  - exact Ez.
  - unfold trows. lia.
  - unfold tcols in *. lia.
  - intros m3 Hz3 Hk3. rewrite ET. cbn [uninit_amatrix mown]. cbn [mblk].
    assert (Hk3' : keeps (fun a => inm z a \/ fst a = next m) m m3).
    { eapply keeps_trans; [eapply keeps_mono; [|exact Hk2']; intros a Ha; right; exact Ha|eapply keeps_mono; [|exact Hk3]; intros a Ha; left; exact Ha]. }
    unfold pfree. cbn [wp]. split; [|split].
    + pose proof (proj1 Hk3) as E3. pose proof (proj1 Hk2) as E2. lia.
    + intros o. right. reflexivity.
    + apply HQ.
      * intros i j Hi Hj. rewrite get_dealloc. destruct (Nat.eqb_spec (fst (ma z i j)) (next m)) as [E|E].
        -- exfalso. eapply (Old z _ _ Hz); [|exact E]. exists i, j; auto.
        -- rewrite (Hz3 i j Hi Hj). f_equal. unfold trows, tcols in *.
           assert (EE : forall p c, (H p c + alpha * sum (mrows T) (fun q => tr false FA p q * sum (mrows B) (fun q0 => fconj (FB q0 q) * F q0 c))
              = H p c + alpha * sum (if yt then mcols y else mrows y) (fun q => lowrank k FA FB p q * F q c))%F).
           { intros p c. f_equal. f_equal. rewrite ERT, Ey. cbn [tr]. unfold lowrank.
             transitivity (sum k (fun q => sum (mrows B) (fun q0 => FA p q * fconj (FB q0 q) * F q0 c)))%F.
             - apply sum_ext. intros q Hq. rewrite <- (sum_mul_l L). apply sum_ext. intros q0 Hq0. ring.
             - rewrite (sum_swap L). apply sum_ext. intros q0 Hq0. rewrite (sum_mul_r L). reflexivity. }
           destruct zt; cbn [tr]; rewrite EE; reflexivity.
      * apply keeps_dealloc; [lia|exact Hk3'].
Qed.

Lemma wp_addmul_rk R W alpha (xt : bool) (r : rkm) (yt : bool) y (zt : bool) z D F H m (Q : unit -> mem K -> Prop) :
  mwf z -> rkrep m r D -> tval yt m y F -> tval zt m z H ->
  disj (inrk r) (inm z) -> disj (inm y) (inm z) -> rdok R W (inrk r) -> rdok R W (inm y) -> wrok W (inm z) ->
  trows zt z = mrows (if xt then rk_B r else rk_A r) -> trows yt y = mrows (if xt then rk_A r else rk_B r) -> tcols yt y = tcols zt z ->
  (forall m', tval zt m' z (fun p c => H p c + alpha * sum (trows yt y) (fun q => tr xt D p q * F q c))%F -> keeps (inm z) m m' -> Q tt m') ->
  wp R W (addmul_rkmatrix_amatrix_amatrix alpha xt r yt y zt z) m Q.
Proof.
  intros Hw (FA & FB & HA & HB & EA & EB & HD) Hy Hz Drz Dyz Rr Ry Wz Ez Ey Ec HQ. unfold addmul_rkmatrix_amatrix_amatrix. cbv zeta.
  assert (D1 : disj (inm (rk_A r)) (inm z)) by (intros a Ha; apply Drz; left; exact Ha).
  assert (D2 : disj (inm (rk_B r)) (inm z)) by (intros a Ha; apply Drz; right; exact Ha).
  assert (R1 : rdok R W (inm (rk_A r))) by (intros a Ha; apply Rr; left; exact Ha).
  assert (R2 : rdok R W (inm (rk_B r))) by (intros a Ha; apply Rr; right; exact Ha).
  wstep. wstep. unfold trows, tcols in Ez, Ey, Ec. destruct xt; wstep; wstep; wstep.
  - apply (wp_addmul_fac R W alpha (rk_B r) (rk_A r) yt y zt z (mcols (rk_A r)) FB FA F H m Q); try assumption; try reflexivity; try lia.
    intros m' Hz' Hk'. apply HQ; [|exact Hk']. eapply tval_ext; [exact Hz'|]. intros p c Hp Hc; cbv beta. f_equal. f_equal.
    apply sum_ext. intros q Hq. f_equal. unfold trows in Hp, Hq. rewrite EA, <- (lowrank_tr L). unfold tr. rewrite HD by lia. reflexivity.
  - apply (wp_addmul_fac R W alpha (rk_A r) (rk_B r) yt y zt z (mcols (rk_A r)) FA FB F H m Q); try assumption; try reflexivity; try lia.
    intros m' Hz' Hk'. apply HQ; [|exact Hk']. eapply tval_ext; [exact Hz'|]. intros p c Hp Hc; cbv beta. f_equal. f_equal.
    apply sum_ext. intros q Hq. f_equal. unfold trows in Hp, Hq. rewrite EA. unfold tr. rewrite HD by lia. reflexivity.
Qed.

Lemma wp_addmul_n h : forall R W alpha (yt : bool) y (zt : bool) z D F H m (Q : unit -> mem K -> Prop),
  mwf z -> hrep m h D -> tval yt m y F -> tval zt m z H -> trows yt y = hcols h -> trows zt z = hrows h -> tcols yt y = tcols zt z ->
  disj (inm y) (inm z) -> disj (inh h) (inm z) -> rdok R W (inh h) -> rdok R W (inm y) -> wrok W (inm z) ->
  (forall m', tval zt m' z (fun p c => H p c + alpha * sum (hcols h) (fun q => D p q * F q c))%F -> keeps (inm z) m m' -> Q tt m') ->
  wp R W (addmul_n_hmatrix_amatrix_amatrix alpha h yt y zt z) m Q.
Proof.
  induction h as [h IH] using hm_rect'. intros R W alpha yt y zt z D F H m Q Hw Hr Hy Hz Ey Ez Ec Dyz Dhz Rh Ry Wz HQ.
  destruct Hr as [rc cc r ds D H1 H2 H3|rc cc a ds D H1 H2 H3|rc cc l rsons csons ds hs ws D P1 P2 P3 P4 P5 P6 P7];
    cbn [addmul_n_hmatrix_amatrix_amatrix]; unfold hcols, hrows in Ey, Ez; cbn [hm_rc hm_cc] in Ey, Ez; wstep; wstep; wstep.
  - eapply (wp_addmul_rk R W alpha false r yt y zt z D F H m Q); try assumption; try lia.
    + intros a Ha. apply Dhz. eapply inh_r; [reflexivity|exact Ha].
    + intros a Ha. apply Rh. eapply inh_r; [reflexivity|exact Ha].
    + intros m' Hz' Hk'. apply HQ; [|exact Hk']. rewrite Ey in Hz'. exact Hz'.
  - eapply (wp_addmul_dense R W alpha false a yt y zt z D F H m Q); try assumption; try lia.
    + intros b Hb. apply Dhz. eapply inh_f; [reflexivity|exact Hb].
    + intros b Hb. apply Rh. eapply inh_f; [reflexivity|exact Hb].
    + intros m' Hz' Hk'. apply HQ; [|exact Hk']. rewrite Ey in Hz'. exact Hz'.
  - cbv zeta.
    assert (Hsub : forall k s, nth_error l k = Some s -> forall a, inh s a -> inh (HM rc cc None None (Some l) rsons csons ds) a).
    { intros k s Hs a Ha. eapply inh_son; [reflexivity|eapply nth_error_In; exact Hs|exact Ha]. }
    apply wp_bind.
    apply (wp_forS (fun j xoff m1 => xoff = nsum j ws /\
      tval zt m1 z (fun p c => H p c + alpha * sum (nsum j ws) (fun q => D p q * F q c))%F /\ keeps (inm z) m m1)).
    + split; [reflexivity|]. split; [|apply keeps_refl]. eapply tval_ext; [exact Hz|]. intros p c Hp Hc; cbv beta. cbn [nsum sum]. ring.
    + intros j xoff m1 [_ Hj] (-> & Hy1 & Hk1). cbn in Hj.
      destruct (nth_ex l (j * rsons)) as [sj Hsj]; [rewrite P3; pose proof (pos_lt 0 j rsons csons P1 Hj); lia|].
      destruct (P6 0 j sj P1 Hj Hsj) as [_ Ecj].
      rewrite (sget_map _ _ _ _ Hsj). cbn [bind fst]. rewrite Ecj.
      pose proof (nsum_in ws j csons Hj) as Bj.
      apply wp_bind. apply wp_subpart; [lia|].
      apply wp_bind.
      apply (wp_forS (fun i yoff m2 => yoff = nsum i hs /\
        tval zt m2 z (fun p c => H p c + alpha * sum (if p <? nsum i hs then nsum (S j) ws else nsum j ws) (fun q => D p q * F q c))%F /\ keeps (inm z) m m2)).
      * split; [reflexivity|]. split; [|exact Hk1]. eapply tval_ext; [exact Hy1|]. intros p c Hp Hc; cbv beta. reflexivity.
      * intros i yoff m2 [_ Hi] (-> & Hy2 & Hk2). cbn in Hi.
        destruct (nth_ex l i) as [si Hsi]; [rewrite P3; pose proof (pos_lt i 0 rsons csons Hi P2); lia|].
        destruct (P6 i 0 si Hi P2) as [Eri _]; [rewrite Nat.mul_0_l, Nat.add_0_r; exact Hsi|].
        destruct (nth_ex l (i + j * rsons)) as [s Hs]; [rewrite P3; apply pos_lt; assumption|].
        destruct (P6 i j s Hi Hj Hs) as [Er Ecs]. pose proof (P7 i j s Hi Hj Hs) as Hsr.
        pose proof (nsum_in hs i rsons Hi) as Bi.
        rewrite (sget_map _ _ _ _ Hsi). cbn [bind fst]. rewrite Eri.
        apply wp_bind. apply wp_subpart; [lia|].
        rewrite (sget_map _ _ _ _ Hs). cbn [bind snd]. apply wp_bind.
        assert (Dhz' : disj (inh s) (inm z)) by (intros a Ha; apply Dhz; eapply Hsub; eauto).
        eapply (IH l s eq_refl (nth_error_In _ _ Hs)) with (y := tsub yt y (nsum j ws) (ws j)) (z := tsub zt z (nsum i hs) (hs i)).
        -- apply mwf_tsub; [exact Hw|lia].
        -- eapply hrep_keeps; [exact Hsr|exact Hk2|exact Dhz'].
        -- apply tval_tsub; [|lia]. eapply tval_keeps; [exact Hy|exact Hk2|exact Dyz].
        -- apply tval_tsub; [exact Hy2|lia].
        -- rewrite trows_tsub. lia.
        -- rewrite trows_tsub. lia.
        -- rewrite !tcols_tsub. exact Ec.
        -- intros a Ha Hb. apply (Dyz a); [eapply in_tsub; [|exact Ha]; lia|eapply in_tsub; [|exact Hb]; lia].
        -- intros a Ha Hb. apply (Dhz' a Ha). eapply in_tsub; [|exact Hb]; lia.
        -- intros a Ha. apply Rh. eapply Hsub; eauto.
        -- intros a Ha. apply Ry. eapply in_tsub; [|exact Ha]. lia.
        -- intros a Ha. apply Wz. eapply in_tsub; [|exact Ha]. lia.
        -- intros m3 Hy3 Hk3. apply wp_bind, wp_tsub_done. cbn [wp].
           split; [reflexivity|]. split; [|eapply keeps_trans; [exact Hk2|eapply keeps_mono; [|exact Hk3]; intros a Ha; eapply in_tsub; [|exact Ha]; lia]].
           eapply tval_ext; [eapply tval_back; [exact Hw|exact Hy2| |exact Hy3|exact Hk3]; lia|].
           intros p c Hp Hc; cbv beta. cbn [nsum]. unfold inb.
           destruct (Nat.leb_spec (nsum i hs) p) as [Hlo|Hlo]; cbn [andb].
           ++ destruct (Nat.ltb_spec p (nsum i hs + hs i)) as [Hhi|Hhi].
              ** destruct (Nat.ltb_spec (nsum i hs + (p - nsum i hs)) (nsum i hs)); [lia|].
                 rewrite (sum_app L). rewrite Ecs. replace (nsum i hs + (p - nsum i hs)) with p by lia. ring.
              ** destruct (Nat.ltb_spec p (nsum i hs)); [lia|reflexivity].
           ++ destruct (Nat.ltb_spec p (nsum i hs + hs i)); [|lia]. destruct (Nat.ltb_spec p (nsum i hs)); [|lia]. reflexivity.
      * intros yoff m2 (-> & Hy2 & Hk2). cbn [Nat.add] in *. rewrite P4. wstep. apply wp_bind, wp_tsub_done. cbn [wp].
        split; [reflexivity|]. split; [|exact Hk2]. eapply tval_ext; [exact Hy2|]. intros p c Hp Hc; cbv beta.
        destruct (Nat.ltb_spec p (nsum rsons hs)); [reflexivity|lia].
    + intros xoff m1 (-> & Hy1 & Hk1). cbn [Nat.add] in *. rewrite P5. wstep. apply HQ; [|exact Hk1].
      rewrite P5 in Hy1. exact Hy1.
Qed.

Lemma wp_addmul_t h : forall R W alpha (yt : bool) y (zt : bool) z D F H m (Q : unit -> mem K -> Prop),
  mwf z -> hrep m h D -> tval yt m y F -> tval zt m z H -> trows yt y = hrows h -> trows zt z = hcols h -> tcols yt y = tcols zt z ->
  disj (inm y) (inm z) -> disj (inh h) (inm z) -> rdok R W (inh h) -> rdok R W (inm y) -> wrok W (inm z) ->
  (forall m', tval zt m' z (fun p c => H p c + alpha * sum (hrows h) (fun q => tr true D p q * F q c))%F -> keeps (inm z) m m' -> Q tt m') ->
  wp R W (addmul_t_hmatrix_amatrix_amatrix alpha h yt y zt z) m Q.
Proof.
  induction h as [h IH] using hm_rect'. intros R W alpha yt y zt z D F H m Q Hw Hr Hy Hz Ey Ez Ec Dyz Dhz Rh Ry Wz HQ.
  destruct Hr as [rc cc r ds D H1 H2 H3|rc cc a ds D H1 H2 H3|rc cc l rsons csons ds hs ws D P1 P2 P3 P4 P5 P6 P7];
    cbn [addmul_t_hmatrix_amatrix_amatrix]; unfold hcols, hrows in Ey, Ez; cbn [hm_rc hm_cc] in Ey, Ez; wstep; wstep; wstep.
  - eapply (wp_addmul_rk R W alpha true r yt y zt z D F H m Q); try assumption; try lia.
    + intros a Ha. apply Dhz. eapply inh_r; [reflexivity|exact Ha].
    + intros a Ha. apply Rh. eapply inh_r; [reflexivity|exact Ha].
    + intros m' Hz' Hk'. apply HQ; [|exact Hk']. rewrite Ey in Hz'. exact Hz'.
  - eapply (wp_addmul_dense R W alpha true a yt y zt z D F H m Q); try assumption; try lia.
    + intros b Hb. apply Dhz. eapply inh_f; [reflexivity|exact Hb].
    + intros b Hb. apply Rh. eapply inh_f; [reflexivity|exact Hb].
    + intros m' Hz' Hk'. apply HQ; [|exact Hk']. rewrite Ey in Hz'. exact Hz'.
  - cbv zeta.
    assert (Hsub : forall k s, nth_error l k = Some s -> forall a, inh s a -> inh (HM rc cc None None (Some l) rsons csons ds) a).
    { intros k s Hs a Ha. eapply inh_son; [reflexivity|eapply nth_error_In; exact Hs|exact Ha]. }
    apply wp_bind.
    apply (wp_forS (fun j yoff m1 => yoff = nsum j ws /\
      tval zt m1 z (fun p c => if p <? nsum j ws then H p c + alpha * sum (csz rc) (fun q => tr true D p q * F q c) else H p c)%F /\ keeps (inm z) m m1)).
    + split; [reflexivity|]. split; [|apply keeps_refl]. eapply tval_ext; [exact Hz|]. intros p c Hp Hc; cbv beta. reflexivity.
    + intros j yoff m1 [_ Hj] (-> & Hy1 & Hk1). cbn in Hj.
      destruct (nth_ex l (j * rsons)) as [sj Hsj]; [rewrite P3; pose proof (pos_lt 0 j rsons csons P1 Hj); lia|].
      destruct (P6 0 j sj P1 Hj Hsj) as [_ Ecj].
      rewrite (sget_map _ _ _ _ Hsj). cbn [bind fst]. rewrite Ecj.
      pose proof (nsum_in ws j csons Hj) as Bj.
      apply wp_bind. apply wp_subpart; [lia|].
      apply wp_bind.
      apply (wp_forS (fun i xoff m2 => xoff = nsum i hs /\
        tval zt m2 z (fun p c => if p <? nsum j ws then H p c + alpha * sum (csz rc) (fun q => tr true D p q * F q c)
                            else if p <? nsum (S j) ws then H p c + alpha * sum (nsum i hs) (fun q => tr true D p q * F q c) else H p c)%F /\ keeps (inm z) m m2)).
      * split; [reflexivity|]. split; [|exact Hk1]. eapply tval_ext; [exact Hy1|]. intros p c Hp Hc; cbv beta.
        destruct (p <? nsum j ws); [reflexivity|]. destruct (p <? nsum (S j) ws); [|reflexivity]. cbn [nsum sum]. ring.
      * intros i xoff m2 [_ Hi] (-> & Hy2 & Hk2). cbn in Hi.
        destruct (nth_ex l i) as [si Hsi]; [rewrite P3; pose proof (pos_lt i 0 rsons csons Hi P2); lia|].
        destruct (P6 i 0 si Hi P2) as [Eri _]; [rewrite Nat.mul_0_l, Nat.add_0_r; exact Hsi|].
        destruct (nth_ex l (i + j * rsons)) as [s Hs]; [rewrite P3; apply pos_lt; assumption|].
        destruct (P6 i j s Hi Hj Hs) as [Er Ecs]. pose proof (P7 i j s Hi Hj Hs) as Hsr.
        pose proof (nsum_in hs i rsons Hi) as Bi.
        rewrite (sget_map _ _ _ _ Hsi). cbn [bind fst]. rewrite Eri.
        apply wp_bind. apply wp_subpart; [lia|].
        rewrite (sget_map _ _ _ _ Hs). cbn [bind snd]. apply wp_bind.
        assert (Dhz' : disj (inh s) (inm z)) by (intros a Ha; apply Dhz; eapply Hsub; eauto).
        eapply (IH l s eq_refl (nth_error_In _ _ Hs)) with (z := tsub zt z (nsum j ws) (ws j)) (y := tsub yt y (nsum i hs) (hs i)).
        -- apply mwf_tsub; [exact Hw|lia].
        -- eapply hrep_keeps; [exact Hsr|exact Hk2|exact Dhz'].
        -- apply tval_tsub; [|lia]. eapply tval_keeps; [exact Hy|exact Hk2|exact Dyz].
        -- apply tval_tsub; [exact Hy2|lia].
        -- rewrite trows_tsub. lia.
        -- rewrite trows_tsub. lia.
        -- rewrite !tcols_tsub. exact Ec.
        -- intros a Ha Hb. apply (Dyz a); [eapply in_tsub; [|exact Ha]; lia|eapply in_tsub; [|exact Hb]; lia].
        -- intros a Ha Hb. apply (Dhz' a Ha). eapply in_tsub; [|exact Hb]; lia.
        -- intros a Ha. apply Rh. eapply Hsub; eauto.
        -- intros a Ha. apply Ry. eapply in_tsub; [|exact Ha]. lia.
        -- intros a Ha. apply Wz. eapply in_tsub; [|exact Ha]. lia.
        -- intros m3 Hy3 Hk3. apply wp_bind, wp_tsub_done. cbn [wp].
           split; [reflexivity|]. split; [|eapply keeps_trans; [exact Hk2|eapply keeps_mono; [|exact Hk3]; intros a Ha; eapply in_tsub; [|exact Ha]; lia]].
           eapply tval_ext; [eapply tval_back; [exact Hw|exact Hy2| |exact Hy3|exact Hk3]; lia|].
           intros p c Hp Hc; cbv beta. cbn [nsum]. unfold inb.
           destruct (Nat.leb_spec (nsum j ws) p) as [Hlo|Hlo]; cbn [andb].
           ++ destruct (Nat.ltb_spec p (nsum j ws)); [lia|]. destruct (Nat.ltb_spec p (nsum j ws + ws j)) as [Hhi|Hhi]; [|reflexivity].
              replace (nsum j ws + (p - nsum j ws)) with p by lia.
              destruct (Nat.ltb_spec p (nsum j ws)); [lia|]. destruct (Nat.ltb_spec p (nsum j ws + ws j)); [|lia].
              rewrite (sum_app L). rewrite Er. unfold tr. replace (nsum j ws + (p - nsum j ws)) with p by lia. ring.
           ++ destruct (Nat.ltb_spec p (nsum j ws)); [|lia]. reflexivity.
      * intros xoff m2 (-> & Hy2 & Hk2). cbn [Nat.add] in *. rewrite P4. wstep. apply wp_bind, wp_tsub_done. cbn [wp].
        split; [reflexivity|]. split; [|exact Hk2]. eapply tval_ext; [exact Hy2|]. intros p c Hp Hc; cbv beta. rewrite P4.
        cbn [nsum]. destruct (Nat.ltb_spec p (nsum j ws)); [|reflexivity]. destruct (Nat.ltb_spec p (nsum j ws + ws j)); [reflexivity|lia].
    + intros yoff m1 (-> & Hy1 & Hk1). cbn [Nat.add] in *. rewrite P5. wstep. apply HQ; [|exact Hk1].
      eapply tval_ext; [exact Hy1|]. intros p c Hp Hc; cbv beta. rewrite P5. destruct (Nat.ltb_spec p (csz cc)); [|lia]. reflexivity.
Qed.

Lemma wp_addmul_h h R W alpha (t : bool) (yt : bool) y (zt : bool) z D F H m (Q : unit -> mem K -> Prop) :
  mwf z -> hrep m h D -> tval yt m y F -> tval zt m z H -> trows yt y = (if t then hrows h else hcols h) -> trows zt z = (if t then hcols h else hrows h) ->
  tcols yt y = tcols zt z ->
  disj (inm y) (inm z) -> disj (inh h) (inm z) -> rdok R W (inh h) -> rdok R W (inm y) -> wrok W (inm z) ->
  (forall m', tval zt m' z (fun p c => H p c + alpha * sum (trows yt y) (fun q => tr t D p q * F q c))%F -> keeps (inm z) m m' -> Q tt m') ->
  wp R W (addmul_hmatrix_amatrix_amatrix alpha t h yt y zt z) m Q.
Proof.
  intros Hw Hr Hy Hz Ey Ez Ec Dyz Dhz Rh Ry Wz HQ. unfold addmul_hmatrix_amatrix_amatrix. rewrite Ey in HQ. destruct t; wstep; wstep; wstep.
  - eapply wp_addmul_t; eauto.
  - eapply wp_addmul_n; eauto.
Qed.
End HaP3.
