(** * Lower triangular parts of products: result *)
From Coq Require Import Arith Lia List Bool Permutation Ring NArith.
From Verif Require Import Fld Ord Prog Arr View Loop Line Spec FactorSpec FactorP4 Cluster Block BlockP Avector Amatrix AvectorP AmatrixP AmatrixP2 Rkmatrix RkSpec RkP Factor Chol CholSpec Qr QrSpec Lr LrP
  CbP CbmSpec CbmP CopSpec OrthoP SepP SepP2 Htrunc HtSpec HtP HtP2 HtP3 HtP4 Hmatrix HmSpec HmP HmP3 HmP4 HlibSpec Harith HaSpec HaP HaP2 HaP3 HaP4 HaddSpec HmvP Hadd MgP MgP2 MgP3 HaddP HaddP2 HaddP3 HaddP4 HaddP5 HaddP6 Hmul HmulP HmulP2 HmulP3 HmulP4 HmulP5 Hfac HfacSpec HfacP HfacP2 HfacP3 HfacP4 HfacP5 Hchol HcholP HcholP2 HcholP3.
Import ListNotations.
Local Open Scope nat_scope.

Section P.
Context {K : fops} {G : ofops} (L : field_laws K) (O : qops K) (H : qlaws O) (HZ : exact_zero O).
Context (orth : Prop) (good : nat -> (nat -> K) -> Prop) (chosen : nat -> (nat -> K) -> nat -> Prop) (dom : nat -> nat -> Prop).
Context (svd : mat -> vec -> mat -> mat -> prog K unit) (rank : vec -> prog K nat) (Hsvd : svd_ok orth good dom svd) (Hrank : rank_ok good chosen rank).
Context (Hdom : forall r c, dom r c) (Hless : forall n s k, chosen n s k -> forall l, k <= l < n -> s l = f0).
Notation RL := (fl_ring K L).
Add Ring KringHchol4 : (rl_ring K (fl_ring K L)).
Local Notation hmx := (hmatrix G).
Implicit Types (m : mem K) (h x y z b : hmx) (l : list hmx) (D E U V W X Y Z : nat -> nat -> K) (rc cc : cptr G).

(** A block below the diagonal *)
Lemma wp_lowrow alpha (xt yt : bool) lx ly R M i k (s : hmx) m D X Y (mh : nat -> nat) : xt && negb yt = false ->
  (forall j, j < M -> exists a b, nth_error lx (tidx xt R M i j) = Some a /\ nth_error ly (tidx yt M R j k) = Some b /\
    forall s1 m1 E1, hlike s s1 -> moves m (hfp s) (hfp s1) m1 -> hrep m1 s1 E1 -> hmut m1 s1 ->
      wp TT TT (addmul_hmatrix O svd rank alpha xt yt a b s1) m1 (hpost m1 s1 (fun p q => E1 p q + alpha * sum (mh j) (fun (c : nat) => X p (nsum j mh + c)%nat * Y (nsum j mh + c)%nat q))%F)) ->
  hrep m s D -> hmut m s ->
  wp TT TT (lowrow O svd rank alpha xt yt (Some lx) (Some ly) R M i k s) m (hpost m s (fun p q => D p q + alpha * sum (nsum M mh) (fun (c : nat) => X p c * Y c q))%F).
Proof.
  intros Hxy HB HR HU. unfold lowrow. apply (wp_forS (fun j s1 m1 => hpost m s (fun p q => D p q + alpha * sum (nsum j mh) (fun (c : nat) => X p c * Y c q))%F s1 m1)).
  - eapply hpost_ext; [apply hpost_refl; eassumption|]. intros p q _ _. cbn [nsum sum]. ring.
  - intros j s1 m1 [_ Hj] HP. cbn in Hj. destruct (HB j Hj) as (a & b & Ha & Hb & Hgo). pose proof HP as (P1 & P2 & P3 & P4).
    apply wp_bind. rewrite (sget_some _ _ _ Ha). cbn [wp]. rewrite Hxy. apply wp_bind. rewrite (sget_some _ _ _ Hb). cbn [wp].
    eapply wp_conseq; [apply (Hgo s1 m1 _ P3 P4 P1 P2)|]. cbv beta. intros s2 m2 HP2. eapply hpost_ext; [eapply hpost_trans; [exact HP|exact HP2]|].
    intros p q _ _. cbv beta. cbn [nsum]. rewrite (sum_app RL). ring.
  - intros s1 m1 HP. exact HP.
Qed.
(** A block on the diagonal *)
Lemma wp_diagrow alpha (xt yt : bool) (go : hmx -> hmx -> hmx -> prog K hmx) lx ly R M i (s : hmx) m D X Y (mh : nat -> nat) :
  (forall j, j < M -> exists a b, nth_error lx (tidx xt R M i j) = Some a /\ nth_error ly (tidx yt M R j i) = Some b /\
    forall s1 m1 E1, hlike s s1 -> moves m (hfp s) (hfp s1) m1 -> hrep m1 s1 E1 -> hmut m1 s1 ->
      wp TT TT (go a b s1) m1 (fun s2 m2 => exists E2, hpost m1 s1 E2 s2 m2 /\ lowerq (hrows s) E2 (fun p q => E1 p q + alpha * sum (mh j) (fun (c : nat) => X p (nsum j mh + c)%nat * Y (nsum j mh + c)%nat q))%F)) ->
  hrep m s D -> hmut m s ->
  wp TT TT (diagrow xt yt (Some (map go lx)) (Some ly) R M i s) m (fun s2 m2 => exists E2, hpost m s E2 s2 m2 /\ lowerq (hrows s) E2 (fun p q => D p q + alpha * sum (nsum M mh) (fun (c : nat) => X p c * Y c q))%F).
Proof.
  intros HB HR HU. unfold diagrow, mulrow. apply (wp_forS (fun j s1 m1 => exists E1, hpost m s E1 s1 m1 /\ lowerq (hrows s) E1 (fun p q => D p q + alpha * sum (nsum j mh) (fun (c : nat) => X p c * Y c q))%F)).
  - exists D. split; [apply hpost_refl; eassumption|]. intros p q _ _. cbn [nsum sum]. ring.
  - intros j s1 m1 [_ Hj] (E1 & HP & HE). cbn in Hj. destruct (HB j Hj) as (a & b & Ha & Hb & Hgo). pose proof HP as (P1 & P2 & P3 & P4).
    apply wp_bind. rewrite (sget_map _ _ _ _ Ha). cbn [wp]. apply wp_bind. rewrite (sget_some _ _ _ Hb). cbn [wp].
    eapply wp_conseq; [apply (Hgo s1 m1 _ P3 P4 P1 P2)|]. cbv beta. intros s2 m2 (E2 & HP2 & HE2). exists E2. split; [eapply hpost_trans; [exact HP|exact HP2]|].
    intros p q Hq Hp. rewrite (HE2 p q Hq Hp). cbv beta. rewrite (HE p q Hq Hp). cbv beta. cbn [nsum]. rewrite (sum_app RL). ring.
  - intros s1 m1 HP. exact HP.
Qed.

Definition lower_ok alpha (xt yt : bool) (x : hmx) : Prop := forall y z m X Y Z (Q : hmx -> mem K -> Prop), hrep m x X -> hrep m y Y -> hrep m z Z -> hmut m z -> hstd x -> hstd y -> hstd z -> hpos x -> hpos y -> hpos z -> hdiag z ->
  hm_rc z = trc xt x -> hm_cc z = tcc yt y -> tcc xt x = trc yt y -> disj (inh x) (hfp z) -> disj (inh y) (hfp z) ->
  (forall E z' m', hpost m z E z' m' -> lowerq (hrows z) E (fun i j => Z i j + alpha * prodf xt yt (csz (tcc xt x)) X Y i j)%F -> Q z' m') ->
  wp TT TT (addmul_lower_hmatrix O svd rank alpha xt yt x y z) m Q.

Lemma wp_lowcheck alpha (xt yt : bool) rc cc l rs cs ds rc' cc' l' rs' cs' ds' c1 lz R dsz m X Y Z (Q : hmx -> mem K -> Prop) : xt && negb yt = false ->
  let x := HM rc cc None None (Some l) rs cs ds in let y := HM rc' cc' None None (Some l') rs' cs' ds' in let z := HM c1 c1 None None (Some lz) R R dsz in
  (forall s, In s l -> lower_ok alpha xt yt s) ->
  hrep m x X -> hrep m y Y -> hrep m z Z -> hmut m z -> hstd x -> hstd y -> hstd z -> hpos x -> hpos y -> hpos z -> hdiag z ->
  c1 = trc xt x -> c1 = tcc yt y -> tcc xt x = trc yt y -> disj (inh x) (hfp z) -> disj (inh y) (hfp z) ->
  (forall E z' m', hpost m z E z' m' -> lowerq (csz c1) E (fun i j => Z i j + alpha * prodf xt yt (csz (tcc xt x)) X Y i j)%F -> Q z' m') ->
  wp TT TT (lowcheck O svd rank alpha xt yt (Some (map (addmul_lower_hmatrix O svd rank alpha xt yt) l)) x y z) m Q.
Proof.
  intros Hxy x y z IH HX HY HR HU SX SY SZ PX PY PZ HDz Erc Ecc Emc Dx Dy HQ.
  destruct (tparts xt m rc cc l rs cs ds X HX SX PX) as ((X1 & X2 & X3 & X4) & (X5 & X6) & (X7 & X8) & (X9 & X10) & X11).
  destruct (tparts yt m rc' cc' l' rs' cs' ds' Y HY SY PY) as ((Y1 & Y2 & Y3 & Y4) & (Y5 & Y6) & (Y7 & Y8) & (Y9 & Y10) & Y11).
  fold x in X1, X2, X3, X4, X5, X6, X7, X8, X9, X10, X11. fold y in Y1, Y2, Y3, Y4, Y5, Y6, Y7, Y8, Y9, Y10, Y11.
  destruct (square_parts m c1 lz R dsz Z HR SZ PZ) as (R0 & HL0 & ER & Hcl & Hst0 & Hson).
  assert (ERz : R = part_sons true c1).
  { pose proof HR as HRx. inversion_clear HRx as [| |? ? ? ? ? ? hs ws ? P1 P2 P3 P4 P5 P6 P7]. apply (std_parts m c1 c1 lz R R dsz hs ws Z SZ P1 P2 P3 P6 P7). }
  assert (EM : trsons yt y = tcsons xt x) by (rewrite Y3, X4, Emc; reflexivity).
  assert (EX : trsons xt x = R) by (rewrite X3, ERz, Erc; reflexivity).
  assert (EY : tcsons yt y = R) by (rewrite Y4, ERz, Ecc; reflexivity).
  assert (HDs : forall j s, j < R -> nth_error lz (j + j * R) = Some s -> hdiag s) by (inversion HDz; assumption).
  unfold lowcheck. cbn [hm_rsons hm_csons hm_son z]. apply wp_bind, wp_assert; [apply Nat.eqb_refl|]. apply wp_bind, wp_assert; [apply Nat.eqb_eq; exact EX|]. apply wp_bind, wp_assert; [apply Nat.eqb_eq; symmetry; exact EM|].
  apply wp_bind, wp_assert; [apply Nat.eqb_eq; exact EY|]. change (hm_son x) with (Some l). change (hm_son y) with (Some l').
  rewrite EX in X11. rewrite EM, EY in Y11. set (M := tcsons xt x) in *. rewrite <- Erc in X11. rewrite <- Ecc, <- Emc in Y11. set (cm := tcc xt x) in *.
  assert (Hxlt : forall a, inh x a -> fst a < next m) by (intros a Ha; exact (alloc_lt _ _ (inh_alloc _ _ _ _ HX Ha))).
  assert (Hylt : forall a, inh y a -> fst a < next m) by (intros a Ha; exact (alloc_lt _ _ (inh_alloc _ _ _ _ HY Ha))).
  assert (Dx1 : disj (inh x) (fpl lz)) by (intros a Ha Hb; apply (Dx a Ha), hfp_super, Hb).
  assert (Dy1 : disj (inh y) (fpl lz)) by (intros a Ha Hb; apply (Dy a Ha), hfp_super, Hb).
  set (off := fun i => nsum i (fun i => csz (prt c1 i))).
  set (W := fun i j => (Z i j + alpha * prodf xt yt (csz cm) X Y i j)%F).
  unfold lowsons. cbn [hm_son z]. apply wp_bind.
  set (INV := fun i j l1 m1 => exists tg, st R m lz tg l1 m1 /\
    (forall i' j' p c, i' < R -> j' < R -> p < csz (prt c1 i') -> c < csz (prt c1 j') -> inlow i' j' p c -> i' < i \/ i' = i /\ j' < j -> tg i' j' p c = W (off i' + p) (off j' + c)) /\
    (forall i' j' p c, i' < R -> j' < R -> p < csz (prt c1 i') -> c < csz (prt c1 j') -> ~ (i' < i \/ i' = i /\ j' < j) -> tg i' j' p c = Z (off i' + p) (off j' + c))).
  (* the products of the submatrices *)
  assert (Hprod : forall i k l1 m1 tg s, st R m lz tg l1 m1 -> i < R -> k < R -> nth_error l1 (i + k * R) = Some s -> hm_rc s = prt c1 i -> hm_cc s = prt c1 k -> forall j, j < M ->
     exists a b Da Db, nth_error l (tidx xt R M i j) = Some a /\ nth_error l' (tidx yt M R j k) = Some b /\ trc xt a = prt c1 i /\ tcc xt a = prt cm j /\ trc yt b = prt cm j /\ tcc yt b = prt c1 k /\
       (forall p c, c < csz (prt cm j) -> tr xt Da p c = tr xt X (off i + p) (nsum j (fun j => csz (prt cm j)) + c)) /\ (forall c q, tr yt Db c q = tr yt Y (nsum j (fun j => csz (prt cm j)) + c) (off k + q)) /\
       forall (s1 : hmx) m2, moves m1 (hfp s) (hfp s1) m2 -> hrep m2 a Da /\ hrep m2 b Db /\ disj (inh a) (hfp s1) /\ disj (inh b) (hfp s1)).
  { intros i k l1 m1 tg s HS Hi Hk Hs C1 C2 j Hj. destruct (X11 i j Hi Hj) as (a & Da & Na & Ca1 & Ca2 & Ra & Ta). destruct (Y11 j k Hj Hk) as (b & Db & Nb & Cb1 & Cb2 & Rb & Tb).
    exists a, b, Da, Db. split; [exact Na|]. split; [exact Nb|]. split; [exact Ca1|]. split; [exact Ca2|]. split; [exact Cb1|]. split; [exact Cb2|].
    split; [intros p c _; exact (Ta p c)|]. split; [intros c q; exact (Tb c q)|]. intros s1 m2 M2.
    pose proof (fo_mov _ _ _ _ _ HS) as M1. pose proof (moves_le _ _ _ _ M1) as Hle.
    assert (Sa : forall q, inh a q -> inh x q) by (intros q Hq; eapply inh_son; [reflexivity|exact (nth_error_In _ _ Na)|exact Hq]).
    assert (Sb : forall q, inh b q -> inh y q) by (intros q Hq; eapply inh_son; [reflexivity|exact (nth_error_In _ _ Nb)|exact Hq]).
    assert (Fs : forall q, hfp s q -> fpl l1 q) by (intros q Hq; exists (i + k * R), s; auto).
    assert (Dxs : disj (inh x) (hfp s)) by (intros q Hq Hb; eapply (moves_disj _ _ _ (inh x) _ M1 Hxlt Dx1 q Hq); apply Fs, Hb).
    assert (Dys : disj (inh y) (hfp s)) by (intros q Hq Hb; eapply (moves_disj _ _ _ (inh y) _ M1 Hylt Dy1 q Hq); apply Fs, Hb).
    split; [eapply hrep_moves; [exact M2|eapply hrep_moves; [exact M1|exact Ra|]|]; intros q Hq; [apply Dx1, Sa, Hq|apply Dxs, Sa, Hq]|].
    split; [eapply hrep_moves; [exact M2|eapply hrep_moves; [exact M1|exact Rb|]|]; intros q Hq; [apply Dy1, Sb, Hq|apply Dys, Sb, Hq]|].
    split; intros q Hq.
    - eapply (moves_disj _ _ _ (inh a)); [exact M2| | |exact Hq]; [intros q' Hq'; pose proof (Hxlt q' (Sa q' Hq')); lia|intros q' Hq'; apply Dxs, Sa, Hq'].
    - eapply (moves_disj _ _ _ (inh b)); [exact M2| | |exact Hq]; [intros q' Hq'; pose proof (Hylt q' (Sb q' Hq')); lia|intros q' Hq'; apply Dys, Sb, Hq']. }
  apply (wp_forS (fun i l1 m1 => INV i 0 l1 m1)).
  - exists (fun i j p c => Z (off i + p) (off j + c)). split; [apply (st_start R c1 m lz HL0 c1 dsz); [reflexivity|exact Hson|exact HU]|]. split; [intros; lia|reflexivity].
  - intros i l1 m1 [_ Hi] HI. cbn [Nat.add] in Hi. apply wp_bind. apply (wp_forS (fun j l1 m1 => INV i j l1 m1)); [exact HI| |]; clear l1 m1 HI.
    + intros j l1 m1 [_ Hj] (tg & HS & H1 & H2). cbn [Nat.add] in Hj.
      destruct (st_get R R c1 c1 m lz HL0 Hcl Hst0 tg l1 m1 i j HS Hi ltac:(lia)) as (s & Ns & A1 & A2 & A3 & A4 & A5 & A6 & _ & s0 & N0 & A8).
      apply wp_bind. rewrite (sget_some _ _ _ Ns). cbn [wp]. apply wp_bind. eapply wp_conseq.
      { eapply (wp_lowrow alpha xt yt l l' R M i j s m1 (tg i j) (fun p c => tr xt X (off i + p) c) (fun c q => tr yt Y c (off j + q)) (fun j => csz (prt cm j)) Hxy); [|exact A3|exact A4].
        intros k Hk. destruct (Hprod i j l1 m1 tg s HS Hi ltac:(lia) Ns A1 A2 k Hk) as (a & b & Da & Db & Na & Nb & Ca1 & Ca2 & Cb1 & Cb2 & Ta & Tb & Hm).
        exists a, b. split; [exact Na|]. split; [exact Nb|]. intros s1 m2 E1 L1 M2 R2 U2. destruct (Hm s1 m2 M2) as (Ra & Rb & Dax & Dbx). destruct (hlike_cl _ _ L1) as [G1 G2].
        eapply (wp_addmul L O H HZ orth good chosen dom svd rank Hsvd Hrank Hdom Hless alpha xt yt a b s1 m2 Da Db E1).
        - exact Ra.
        - exact Rb.
        - exact R2.
        - exact U2.
        - eapply hstd_son; [exact SX|reflexivity|exact (nth_error_In _ _ Na)].
        - eapply hstd_son; [exact SY|reflexivity|exact (nth_error_In _ _ Nb)].
        - eapply hstd_like; [exact L1|exact A5].
        - eapply hpos_son; [exact PX|reflexivity|exact (nth_error_In _ _ Na)].
        - eapply hpos_son; [exact PY|reflexivity|exact (nth_error_In _ _ Nb)].
        - congruence.
        - congruence.
        - congruence.
        - exact Dax.
        - exact Dbx.
        - intros z' m' HP. eapply hpost_ext; [exact HP|]. intros p q _ _. cbv beta. f_equal. f_equal. rewrite Ca2. unfold prodf. apply sum_ext. intros c Hc. rewrite Ta by exact Hc. rewrite Tb. reflexivity. }
      cbv beta. intros s' m2 HP. cbn [wp].
      exists (fun i' j' p c => if (i' =? i) && (j' =? j) then (tg i j p c + alpha * sum (nsum M (fun j => csz (prt cm j))) (fun q => tr xt X (off i + p) q * tr yt Y q (off j + c)))%F else tg i' j' p c).
      split; [eapply (st_put R R c1 c1 m lz HL0 Hcl); [exact HS|exact Hi|lia|exact Ns|exact HP|reflexivity]|]. split.
      * intros i' j' p c Hi1 Hj1 Hp Hc Hin Hd. destruct (Nat.eqb_spec i' i) as [->|Ni]; [destruct (Nat.eqb_spec j' j) as [->|Nj]|]; cbn [andb]; [|apply H1; try assumption; lia|apply H1; try assumption; lia].
        rewrite H2 by (try assumption; lia). unfold W. rewrite X8. reflexivity.
      * intros i' j' p c Hi1 Hj1 Hp Hc Hn. destruct (Nat.eqb_spec i' i) as [->|Ni]; [destruct (Nat.eqb_spec j' j) as [->|Nj]|]; cbn [andb]; [lia| |]; apply H2; try assumption; lia.
    + intros l1 m1 (tg & HS & H1 & H2). cbn [Nat.add] in *.
      destruct (st_get R R c1 c1 m lz HL0 Hcl Hst0 tg l1 m1 i i HS Hi Hi) as (s & Ns & A1 & A2 & A3 & A4 & A5 & A6 & _ & s0 & N0 & A8).
      apply wp_bind. rewrite (sget_some _ _ _ Ns). cbn [wp]. apply wp_bind. eapply wp_conseq.
      { eapply (wp_diagrow alpha xt yt (addmul_lower_hmatrix O svd rank alpha xt yt) l l' R M i s m1 (tg i i) (fun p c => tr xt X (off i + p) c) (fun c q => tr yt Y c (off i + q)) (fun j => csz (prt cm j))); [|exact A3|exact A4].
        intros k Hk. destruct (Hprod i i l1 m1 tg s HS Hi Hi Ns A1 A2 k Hk) as (a & b & Da & Db & Na & Nb & Ca1 & Ca2 & Cb1 & Cb2 & Ta & Tb & Hm).
        exists a, b. split; [exact Na|]. split; [exact Nb|]. intros s1 m2 E1 L1 M2 R2 U2. destruct (Hm s1 m2 M2) as (Ra & Rb & Dax & Dbx). destruct (hlike_cl _ _ L1) as [G1 G2].
        eapply (IH a (nth_error_In _ _ Na) b s1 m2 Da Db E1).
        - exact Ra.
        - exact Rb.
        - exact R2.
        - exact U2.
        - eapply hstd_son; [exact SX|reflexivity|exact (nth_error_In _ _ Na)].
        - eapply hstd_son; [exact SY|reflexivity|exact (nth_error_In _ _ Nb)].
        - eapply hstd_like; [exact L1|exact A5].
        - eapply hpos_son; [exact PX|reflexivity|exact (nth_error_In _ _ Na)].
        - eapply hpos_son; [exact PY|reflexivity|exact (nth_error_In _ _ Nb)].
        - eapply hpos_like; [exact L1|exact A6].
        - eapply hdiag_like; [eapply hdiag_like; [exact (HDs i s0 Hi N0)|exact A8]|exact L1].
        - congruence.
        - congruence.
        - congruence.
        - exact Dax.
        - exact Dbx.
        - intros E2 z' m' HP HE. exists E2. split; [exact HP|]. replace (hrows s) with (hrows s1) by (unfold hrows; congruence). eapply lowerq_ext; [exact HE|]. intros p q _ _. cbv beta. f_equal. f_equal. rewrite Ca2. unfold prodf. apply sum_ext. intros c Hc. rewrite Ta by exact Hc. rewrite Tb. reflexivity. }
      cbv beta. intros s' m2 (E2 & HP & HE). cbn [wp].
      exists (fun i' j' p c => if (i' =? i) && (j' =? i) then E2 p c else tg i' j' p c).
      split; [eapply (st_put R R c1 c1 m lz HL0 Hcl); [exact HS|exact Hi|exact Hi|exact Ns|exact HP|reflexivity]|]. split.
      * intros i' j' p c Hi1 Hj1 Hp Hc Hin Hd. destruct (Nat.eqb_spec i' i) as [->|Ni]; [destruct (Nat.eqb_spec j' i) as [->|Nj]|]; cbn [andb].
        -- destruct Hin as [|[_ Hin]]; [lia|]. rewrite HE by (unfold hrows; rewrite ?A1; assumption). cbv beta. rewrite H2 by (try assumption; lia). unfold W. rewrite X8. reflexivity.
        -- apply H1; try assumption. destruct Hin as [Hin|[Hin _]]; lia.
        -- apply H1; try assumption; lia.
      * intros i' j' p c Hi1 Hj1 Hp Hc Hn. destruct (Nat.eqb_spec i' i) as [->|Ni]; [destruct (Nat.eqb_spec j' i) as [->|Nj]|]; cbn [andb]; [lia| |]; apply H2; try assumption; lia.
  - intros l1 m1 (tg & HS & H1 & _). cbn [Nat.add wp set_sons z] in *. eapply HQ; [eapply st_hpost; [exact HL0|exact Hcl|exact R0|exact ER|exact HS]|].
    eapply low_asm; [exact HL0|exact R0|exact ER|]. intros i j p c Hi Hj Hp Hc Hin. apply H1; auto.
Qed.

Lemma cl_part_intro (c : cptr G) n i : n = part_sons true c -> part_son (K := K) true c i = Ret (prt c i) -> cl_part c n i (prt c i).
Proof.
  unfold cl_part, prt, part_sons, part_son. cbn [andb]. intros -> E. destruct (Nat.ltb_spec 0 (cp_sons c)) as [Hs|Hs]; [|left; split; [lia|auto]].
  right. split; [exact Hs|]. split; [reflexivity|]. destruct (cp_son c i) as [t|e]; [reflexivity|]. cbn [lift] in E. discriminate.
Qed.
(** The parts of a dense matrix are a subdivided matrix. *)
Lemma views_square m f (c1 : cptr G) (lb : list hmx) R dsb D : mval m f D -> mwf f -> mrows f = csz c1 -> mcols f = csz c1 -> 0 < R -> R = part_sons true c1 -> length lb = R * R -> nsum R (fun i => csz (prt c1 i)) = csz c1 ->
  (forall i, i < R -> part_son (K := K) true c1 i = Ret (prt c1 i)) -> (forall i, i < R -> 0 < csz (prt c1 i)) -> 0 < csz c1 ->
  (forall i j (s : hmx), i < R -> j < R -> nth_error lb (i + j * R) = Some s ->
     s = HM (prt c1 i) (prt c1 j) None (Some (subm f (nsum i (fun i => csz (prt c1 i))) (csz (prt c1 i)) (nsum j (fun j => csz (prt c1 j))) (csz (prt c1 j)))) None 0 0 1) ->
  let bs := HM c1 c1 None None (Some lb) R R dsb in hrep m bs D /\ hmut m bs /\ hpos bs /\ hdiag bs /\ (forall c, hfp bs c <-> inm f c).
Proof.
  intros HV HW Rf Cf R0 ER LB EN HRl Hpos Hp1 VB bs.
  assert (Hnod : forall s, In s (hnodes bs) -> s = bs \/ exists i j, i < R /\ j < R /\ s = HM (prt c1 i) (prt c1 j) None (Some (subm f (nsum i (fun i => csz (prt c1 i))) (csz (prt c1 i)) (nsum j (fun j => csz (prt c1 j))) (csz (prt c1 j)))) None 0 0 1).
  { intros s Hs. cbn [hnodes bs] in Hs. destruct Hs as [<-|Hs]; [left; reflexivity|]. right. apply in_flat_map in Hs as (t & Ht & Hs). apply In_nth_error in Ht as (k & Hk).
    destruct (posinv R R k) as (i & j & Hi & Hj & ->); [rewrite <- LB; apply nth_error_Some; congruence|]. exists i, j. split; [exact Hi|]. split; [exact Hj|]. pose proof (VB i j t Hi Hj Hk) as Et. rewrite Et in Hs. cbn [hnodes] in Hs. destruct Hs as [<-|[]]. reflexivity. }
  split; [|split; [|split; [|split]]].
  - eapply (hrep_super m c1 c1 lb R R dsb (fun i => csz (prt c1 i)) (fun i => csz (prt c1 i))); try assumption.
    + intros i j s Hi Hj Hs. rewrite (VB i j s Hi Hj Hs). auto.
    + intros i j s Hi Hj Hs. eapply (views_part f c1 c1 R R lb Rf Cf EN EN VB m D i j s); eassumption.
  - apply (views_mut f c1 c1 R R lb dsb HW Rf Cf R0 R0 LB EN EN Hpos Hpos VB m).
  - intros s Hs. destruct (Hnod s Hs) as [->|(i & j & Hi & Hj & ->)]; [split; exact Hp1|split; apply Hpos; assumption].
  - apply hdiag_super. intros j s Hj Hs. rewrite (VB j j s Hj Hj Hs). apply hdiag_full.
  - exact (views_fp f c1 c1 R R lb dsb Rf Cf R0 R0 LB EN EN VB).
Qed.

Lemma wp_addmul_lower alpha (xt yt : bool) : fconj alpha = alpha -> xt && negb yt = false -> forall x, lower_ok alpha xt yt x.
Proof.
  intros Hal Hxy x. induction x as [x IH] using hsize_ind. intros y z m X Y Z Q HX HY HR HU SX SY SZ PX PY PZ HDz Erc Ecc Emc Dx Dy HQ.
  assert (Ar : hrows z = csz (trc xt x)) by (unfold hrows; rewrite Erc; reflexivity).
  assert (Ac : hcols z = csz (tcc yt y)) by (unfold hcols; rewrite Ecc; reflexivity).
  destruct (hdiag_rc _ HDz) as (Esq & _).
  inversion HX as [rc cc r ds E0 Z1 Z2 Z3|rc cc f ds E0 Z1 Z2 Z3|rc cc l rs cs ds hs ws E0 P1 P2 P3 P4 P5 P6 P7]; subst x; subst E0; cbn [addmul_lower_hmatrix].
  all: apply wp_bind, wp_assert; [rewrite Esq; apply cp_eqb_refl|].
  - (* low-rank x *)
    set (x := HM rc cc (Some r) None None 0 0 ds) in *.
    assert (En : csz (tcc xt x) = mrows (if xt then rk_A r else rk_B r)) by (destruct xt; cbn; congruence).
    destruct (hm_f y) as [yf|] eqn:Eyf.
    + inversion HY as [rc' cc' r' ds' E0 V1 V2 V3|rc' cc' f' ds' E0 V1 V2 V3|rc' cc' l' rs' cs' ds' hs' ws' E0 B1 B2 B3 B4 B5 B6 B7]; subst y; subst E0; cbn [hm_f] in Eyf; try discriminate. injection Eyf as ->. 
      assert (Em : csz (tcc xt x) = Harith.trows yt yf) by (rewrite Emc; destruct yt; cbn; congruence).
      eapply (wp_lyf L O H HZ orth good chosen dom svd rank Hsvd Hrank Hdom Hless alpha xt yt x yf z m X Y Z); try assumption.
      * rewrite Ac. destruct yt; cbn; congruence.
      * symmetry. exact Em.
      * intros E z' m' HPo HE. eapply HQ; [exact HPo|]. rewrite Em. exact HE.
    + eapply (wp_lxr L O H HZ orth good chosen dom svd rank Hsvd Hrank Hdom Hless alpha xt yt x r y z m X Y Z); try assumption.
      * rewrite Ar. destruct xt; cbn; congruence.
      * symmetry. exact Ar.
      * rewrite <- En, Emc. reflexivity.
      * intros E z' m' HPo HE. eapply HQ; [exact HPo|]. rewrite En. exact HE.
  - (* dense x *)
    set (x := HM rc cc None (Some f) None 0 0 ds) in *.
    assert (En : csz (tcc xt x) = Harith.tcols xt f) by (destruct xt; cbn; congruence).
    eapply (wp_lxf L O H HZ orth good chosen dom svd rank Hsvd Hrank Hdom Hless alpha xt yt f y z m X Y Z); try assumption.
    + rewrite Ar. destruct xt; cbn; congruence.
    + rewrite <- En, Emc. reflexivity.
    + intros E z' m' HPo HE. eapply HQ; [exact HPo|]. rewrite En. exact HE.
  - set (x := HM rc cc None None (Some l) rs cs ds) in *.
    inversion HY as [rc' cc' r' ds' E0 Z1 Z2 Z3|rc' cc' f' ds' E0 Z1 Z2 Z3|rc' cc' l' rs' cs' ds' hs' ws' E0 B1 B2 B3 B4 B5 B6 B7]; subst y; subst E0; cbn [hm_f hm_r].
    + (* low-rank y *)
      set (y := HM rc' cc' (Some r') None None 0 0 ds') in *.
      assert (En : csz (tcc xt x) = mrows (if yt then rk_B r' else rk_A r')) by (rewrite Emc; destruct yt; cbn; congruence).
      eapply (wp_lyr L O H HZ orth good chosen dom svd rank Hsvd Hrank Hdom Hless alpha xt yt x y r' z m X Y Z); try assumption.
      * rewrite Ac. destruct yt; cbn; congruence.
      * symmetry. exact Ac.
      * symmetry. exact En.
      * intros E z' m' HPo HE. eapply HQ; [exact HPo|]. rewrite En. exact HE.
    + (* dense y *)
      assert (Em : csz (tcc xt x) = Harith.trows yt f') by (rewrite Emc; destruct yt; cbn; congruence).
      eapply (wp_lyf L O H HZ orth good chosen dom svd rank Hsvd Hrank Hdom Hless alpha xt yt x f' z m X Y Z); try assumption.
      * rewrite Ac. destruct yt; cbn; congruence.
      * symmetry. exact Em.
      * intros E z' m' HPo HE. eapply HQ; [exact HPo|]. rewrite Em. exact HE.
    + set (y := HM rc' cc' None None (Some l') rs' cs' ds') in *. cbn [hm_son y]. apply wp_bind, wp_assert; [reflexivity|]. apply wp_bind, wp_assert; [reflexivity|]. cbv zeta.
      destruct HDz as [c1 zf dsz|c1 lz R dsz HDs]; cbn [hm_rc hm_cc] in Erc, Ecc; cbn [hm_son hm_f hm_rc hm_cc].
      * (* dense target *)
        inversion HR as [|? ? ? ? E0 Z1 Z2 Z3|]; subst. pose proof HU as HUx. inversion_clear HUx as [|? ? ? ? U1 U2 UW|]. fold x in Ecc |- *. fold y in Ecc.
        set (c1 := trc xt x) in *. set (z := HM c1 c1 None (Some zf) None 0 0 dsz) in *.
        destruct (tparts xt m rc cc l rs cs ds X HX SX PX) as ((X1 & X2 & X3 & X4) & (X5 & X6) & (X7 & X8) & (X9 & X10) & X11).
        destruct (tparts yt m rc' cc' l' rs' cs' ds' Y HY SY PY) as ((Y1 & Y2 & Y3 & Y4) & (Y5 & Y6) & (Y7 & Y8) & (Y9 & Y10) & Y11).
        fold x c1 in X1, X2, X3, X4, X5, X6, X7, X8, X9, X10, X11. fold y in Y1, Y2, Y3, Y4, Y5, Y6, Y7, Y8, Y9, Y10, Y11.
        destruct (X11 0 0 X1 X2) as (x0 & Dx0 & Nx0 & Cx0 & _). destruct (Y11 0 0 Y1 Y2) as (y0 & Dy0 & Ny0 & _ & Cy0 & _).
        assert (T0 : forall (t : bool) (a0 b0 : nat), tidx t a0 b0 0 0 = 0) by (intros [] ? ?; reflexivity). rewrite T0 in Nx0, Ny0.
        apply wp_bind. rewrite (sget_some _ _ _ Nx0). cbn [wp]. apply wp_bind. rewrite (sget_some _ _ _ Ny0). cbn [wp]. rewrite Cx0, Cy0. rewrite <- Ecc in *.
        destruct (split_flag (K := K) c1) as (F1 & F2 & F3 & F4). set (sp := negb (cp_eqb (prt c1 0) c1)) in *. set (R := trsons xt x) in *.
        apply wp_bind. eapply wp_split_am with (rs := R) (cs := R) (rl := prt c1) (cl := prt c1);
          [congruence|congruence|intros i Hi; rewrite F2; apply X5, Hi|intros j Hj; rewrite F2; apply X5, Hj|exact X1|exact X1|exact X7|exact X7|exact X9|exact X9|exact UW|exact Z3|exact Z1|exact Z2|].
        cbv zeta. intros lb dsb LB VB. set (bs := HM c1 c1 None None (Some lb) R R dsb) in *.
        destruct (views_square m zf c1 lb R dsb Z Z3 UW Z1 Z2 X1 X3 LB X7 X5 X9 U1 VB) as (RB & UB & PB & DB & FB). fold bs in RB, UB, PB, DB, FB.
        assert (SB : hstd bs).
        { intros s l0 Hs El. cbn [hnodes bs] in Hs. destruct Hs as [<-|Hs].
          - cbn [hm_son bs] in El. injection El as <-. cbn [hm_rsons hm_csons hm_rc hm_cc bs]. split; [exact LB|]. intros i j s Hi Hj Hs. rewrite (VB i j s Hi Hj Hs). cbn [hm_rc hm_cc]. split; apply cl_part_intro; auto.
          - exfalso. apply in_flat_map in Hs as (t & Ht & Hs). apply In_nth_error in Ht as (k & Hk). destruct (posinv R R k) as (i & j & Hi & Hj & ->); [rewrite <- LB; apply nth_error_Some; congruence|].
            pose proof (VB i j t Hi Hj Hk) as Et. rewrite Et in Hs. cbn [hnodes] in Hs. destruct Hs as [<-|[]]. discriminate. }
        apply wp_bind. eapply (wp_lowcheck alpha xt yt rc cc l rs cs ds rc' cc' l' rs' cs' ds' c1 lb R dsb m X Y Z _ Hxy); fold x y bs; try assumption.
        { intros s Is. apply (IH l s eq_refl Is). }
        { intros c Hc Hb. apply (Dx c Hc), hfp_full, FB, Hb. }
        { intros c Hc Hb. apply (Dy c Hc), hfp_full, FB, Hb. }
        intros E bs' m2 (RB2 & UB2 & LB2 & MB2) HE. apply (views_like zf c1 c1 R R lb dsb Z1 Z2 X1 X1 LB X7 X7 VB) in LB2. fold bs in LB2. subst bs'.
        apply wp_bind. apply wp_del_views; [exact LB| |].
        { intros s Hs. apply In_nth_error in Hs as (k & Hk). destruct (view_at zf c1 c1 R R lb Z1 Z2 X1 X1 LB X7 X7 VB k s Hk) as (_ & _ & E1). do 4 eexists. split; [exact E1|reflexivity]. }
        cbn [wp]. eapply HQ; [|exact HE]. eapply hpost_full; [exact HR|exact HU| |].
        -- exact (views_back zf c1 c1 R R lb dsb Z1 Z2 X1 X1 LB X7 X7 VB m2 _ RB2).
        -- eapply keeps_mono; [|apply (moves_keep _ _ _ MB2)]. intros c Hc. apply FB, Hc.
      * (* subdivided target *)
        eapply (wp_lowcheck alpha xt yt rc cc l rs cs ds rc' cc' l' rs' cs' ds' c1 lz R dsz m X Y Z Q Hxy); try assumption.
        { intros s Is. apply (IH l s eq_refl Is). }
        { apply hdiag_super, HDs. }
Qed.
End P.
