(** * Cholesky factorizations of H-matrices *)
From Coq Require Import Arith Lia List Bool Permutation Ring NArith.
From Verif Require Import Fld Ord Prog Arr View Loop Line Spec FactorSpec FactorP4 Cluster Block BlockP Avector Amatrix AvectorP AmatrixP AmatrixP2 Rkmatrix RkSpec RkP Factor Chol CholSpec CholP CholP2 CholP5 Qr QrSpec Lr LrP
  CbP CbmSpec CbmP CopSpec OrthoP SepP SepP2 Htrunc HtSpec HtP HtP2 HtP3 HtP4 Hmatrix HmSpec HmP HmP3 HmP4 HlibSpec Harith HaSpec HaP HaP2 HaP3 HaP4 HaddSpec HmvP Hadd MgP MgP2 MgP3 HaddP HaddP2 HaddP3 HaddP4 HaddP5 HaddP6 Hmul HmulP HmulP2 HmulP3 HmulP4 HmulP5 Hfac HfacSpec HfacP HfacP2 HfacP3 HfacP4 HfacP5 Hchol HcholP HcholP2 HcholP3 HcholP4.
Import ListNotations.
Local Open Scope nat_scope.

(** ** The elimination *)
Section Alg.
Context {K : fops} (L : field_laws K).
Notation RL := (fl_ring K L).
Add Ring KringHchol5 : (rl_ring K (fl_ring K L)).
Notation lo := (tripart true false).
Implicit Types (F : nat -> nat -> K).
(** The remaining matrix when the first [o] rows and columns are eliminated *)
Definition scc (n o : nat) F (i j : nat) : K := sum (n - o) (fun r => lo F i (o + r)%nat * fconj (lo F j (o + r)%nat))%F.

Lemma scc_split n o w F i j : o + w <= n -> scc n o F i j = (sum w (fun q => lo F i (o + q)%nat * fconj (lo F j (o + q)%nat)) + scc n (o + w) F i j)%F.
Proof.
  intros Hw. unfold scc. replace (n - o) with (w + (n - (o + w))) by lia. rewrite (sum_app RL). f_equal. apply sum_ext. intros r _. rewrite Nat.add_assoc. reflexivity.
Qed.
Lemma loc_0 F i j : i < j -> lo F i j = f0.
Proof. intros Hij. unfold tripart. destruct (Nat.eqb_spec i j); [lia|]. destruct (Nat.ltb_spec j i); [lia|reflexivity]. Qed.
Lemma loc_at F i j : j <= i -> lo F i j = F i j.
Proof. intros Hij. unfold tripart. destruct (Nat.eqb_spec i j); [reflexivity|]. destruct (Nat.ltb_spec j i); [reflexivity|lia]. Qed.
Lemma scc_0 n o F i j : i < o \/ j < o -> scc n o F i j = f0.
Proof. intros Hij. apply (sum_0 RL). intros r _. destruct Hij; [rewrite (loc_0 F i) by lia|rewrite (loc_0 F j) by lia; rewrite (fconj_0 RL)]; ring. Qed.
Lemma loc_shift F o i j : lo (fun p q => F (o + p) (o + q)) i j = lo F (o + i) (o + j).
Proof. apply (tri_shift true false false). Qed.

Lemma scc_diag n o w F i j : o + w <= n -> i < w -> j < w -> scc n o F (o + i) (o + j) = scc w 0 (fun p q => F (o + p) (o + q)) i j.
Proof.
  intros Hw Hi Hj. rewrite (scc_split n o w) by exact Hw. rewrite scc_0 by lia. unfold scc. rewrite Nat.sub_0_r. cbn [Nat.add]. rewrite (sum_ext w (fun r => lo (fun p q => F (o + p) (o + q))%nat i r * fconj (lo (fun p q => F (o + p) (o + q))%nat j r))%F (fun q => lo F (o + i)%nat (o + q)%nat * fconj (lo F (o + j)%nat (o + q)%nat))%F); [ring|].
  intros q _. rewrite !loc_shift. reflexivity.
Qed.
Lemma scc_col n o w F p c : o + w <= n -> p < w -> o + w <= c -> scc n o F c (o + p) = sum w (fun q => F c (o + q)%nat * fconj (lo (fun p q => F (o + p) (o + q))%nat p q))%F.
Proof.
  intros Hw Hp Hc. rewrite (scc_split n o w) by exact Hw. rewrite scc_0 by lia. transitivity (sum w (fun q => lo F c (o + q)%nat * fconj (lo F (o + p)%nat (o + q)%nat))%F); [ring|].
  apply sum_ext. intros q Hq. rewrite loc_shift, (loc_at F c) by lia. reflexivity.
Qed.
Lemma scc_next n o w F i j : o + w <= n -> o + w <= i -> o + w <= j -> scc n (o + w) F i j = (scc n o F i j + - (1) * sum w (fun q => F i (o + q)%nat * fconj (F j (o + q)%nat)))%F.
Proof.
  intros Hw Hi Hj. rewrite (scc_split n o w) by exact Hw. rewrite (sum_ext w (fun q => lo F i (o + q)%nat * fconj (lo F j (o + q)%nat))%F (fun q => F i (o + q)%nat * fconj (F j (o + q)%nat))%F); [ring|].
  intros q Hq. rewrite !loc_at by lia. reflexivity.
Qed.
Lemma scc_real n F i : fconj (scc n 0 F i i) = scc n 0 F i i.
Proof. unfold scc. rewrite (sum_conj RL). apply sum_ext. intros q _. rewrite (rl_conj_mul K RL), (rl_conj_conj K RL). ring. Qed.
Lemma scc_sinv n F D : (forall i j, j <= i -> i < n -> D i j = scc n 0 F i j) -> CholP.sinv n n (lo F) (fun _ => f1) F D.
Proof.
  intros HD i j Hi Hj. rewrite HD by assumption. destruct (Nat.leb_spec n j); [lia|]. unfold scc. rewrite Nat.sub_0_r. cbn [Nat.add].
  rewrite (sum_ext n (fun k => lo F i k * f1 * fconj (lo F j k))%F (fun r => lo F i r * fconj (lo F j r))%F) by (intros; ring). ring.
Qed.
Lemma sinv_scc n F D : CholP.sinv n n (lo F) (fun _ => f1) F D -> forall i j, j <= i -> i < n -> D i j = scc n 0 F i j.
Proof.
  intros HD i j Hj Hi. rewrite (HD i j Hi Hj). destruct (Nat.leb_spec n j); [lia|]. unfold scc. rewrite Nat.sub_0_r. cbn [Nat.add].
  rewrite (sum_ext n (fun k => lo F i k * f1 * fconj (lo F j k))%F (fun r => lo F i r * fconj (lo F j r))%F) by (intros; ring). ring.
Qed.
End Alg.

Section P.
Context {K : fops} {G : ofops} (L : field_laws K) (O : qops K) (H : qlaws O) (HZ : exact_zero O).
Context (orth : Prop) (good : nat -> (nat -> K) -> Prop) (chosen : nat -> (nat -> K) -> nat -> Prop) (dom : nat -> nat -> Prop).
Context (svd : mat -> vec -> mat -> mat -> prog K unit) (rank : vec -> prog K nat) (Hsvd : svd_ok orth good dom svd) (Hrank : rank_ok good chosen rank).
Context (Hdom : forall r c, dom r c) (Hless : forall n s k, chosen n s k -> forall l, k <= l < n -> s l = f0).
Notation RL := (fl_ring K L).
Add Ring KringHchol5b : (rl_ring K (fl_ring K L)).
Local Notation hmx := (hmatrix G).
Notation lo := (tripart true false).
Implicit Types (m : mem K) (h x y z a : hmx) (l : list hmx) (D E F U V W X Y Z : nat -> nat -> K) (rc cc : cptr G).

Definition positive (n : nat) F : Prop := forall i, i < n -> nonpos O (F i i) = false /\ fconj (F i i) = F i i.
Definition chol_ok (go : hmx -> prog K hmx) (s0 : hmx) : Prop := forall a m D F (Q : hmx -> mem K -> Prop),
  hlike s0 a -> hrep m a D -> hmut m a -> hstd a -> hpos a -> hdiag a -> (N.of_nat (hrows a) < 2 ^ 32)%N ->
  lowerq (hrows a) D (scc (hrows a) 0 F) -> positive (hrows a) F ->
  (forall E a' m', hpost m a E a' m' -> lowerq (hrows a) E F -> Q a' m') -> wp TT TT (go a) m Q.

Section Step.
Variables (R : nat) (rc0 : cptr G) (m0 : mem K) (l0 : list hmx).
Hypothesis HL0 : length l0 = R * R.
Hypothesis Hcl : forall i k s, i < R -> k < R -> nth_error l0 (i + k * R) = Some s -> hm_rc s = prt rc0 i /\ hm_cc s = prt rc0 k.
Hypothesis Hst0 : forall s, In s l0 -> hstd s /\ hpos s.
Hypothesis Hdg : forall k s, k < R -> nth_error l0 (k + k * R) = Some s -> hdiag s.
Variable F : nat -> nat -> K.
Local Notation hs := (fun i => csz (prt rc0 i)).
Local Notation n := (nsum R hs).
Local Notation off i := (nsum i hs).
Hypothesis H32 : (N.of_nat n < 2 ^ 32)%N.
Hypothesis Hpos : positive n F.
Local Notation st := (st R m0 l0).
Definition CFB (i j p c : nat) : K := F (off i + p) (off j + c).
Definition CSB (k i j p c : nat) : K := scc n (off k) F (off i + p) (off j + c).
Definition ctgd (dn : nat -> nat -> bool) (sn : nat -> nat -> nat) (i j p c : nat) : K := if dn i j then CFB i j p c else CSB (sn i j) i j p c.
Definition ctgk (k : nat) := ctgd (fun _ j => (j <? k)) (fun _ _ => k).

(** The lower triangular part of the blocks *)
Definition lst (t : nat -> nat -> nat -> nat -> K) l m : Prop := exists tg, st tg l m /\ lowtg R rc0 tg t.
Lemma lst_ext (t t' : nat -> nat -> nat -> nat -> K) l m : lst t l m -> (forall i j p c, j <= i -> i < R -> t i j p c = t' i j p c) -> lst t' l m.
Proof.
  intros (tg & HS & HT) HE. exists tg. split; [exact HS|]. intros i j p c Hi Hj Hp Hc Hin. rewrite (HT i j p c) by assumption. apply HE; [destruct Hin; lia|exact Hi].
Qed.
Lemma lst_get (t : nat -> nat -> nat -> nat -> K) l m i k : lst t l m -> k < i -> i < R -> exists s, nth_error l (i + k * R) = Some s /\
  hm_rc s = prt rc0 i /\ hm_cc s = prt rc0 k /\ hrep m s (t i k) /\ hmut m s /\ hstd s /\ hpos s /\ (forall b, inh s b -> fst b < next m).
Proof.
  intros (tg & HS & HT) Hk Hi. destruct (st_get R R rc0 rc0 m0 l0 HL0 Hcl Hst0 _ l m i k HS Hi ltac:(lia)) as (s & Ns & A1 & A2 & A3 & A4 & A5 & A6 & A7 & _).
  exists s. repeat (split; [assumption|]). split; [|auto]. eapply hrep_ext; [exact A3|]. unfold hrows, hcols. rewrite A1, A2. intros p c Hp Hc. symmetry. apply HT; try assumption; [lia|left; exact Hk].
Qed.
Lemma lst_diag (t : nat -> nat -> nat -> nat -> K) l m k : lst t l m -> k < R -> exists s D, nth_error l (k + k * R) = Some s /\
  hm_rc s = prt rc0 k /\ hm_cc s = prt rc0 k /\ hrep m s D /\ lowerq (hs k) D (t k k) /\ hmut m s /\ hstd s /\ hpos s /\ (forall b, inh s b -> fst b < next m) /\
  exists s0, nth_error l0 (k + k * R) = Some s0 /\ hlike s0 s.
Proof.
  intros (tg & HS & HT) Hk. destruct (st_get R R rc0 rc0 m0 l0 HL0 Hcl Hst0 _ l m k k HS Hk Hk) as (s & Ns & A1 & A2 & A3 & A4 & A5 & A6 & A7 & A8).
  exists s, (tg k k). repeat (split; [assumption|]). split; [|auto 10]. intros p q Hq Hp. apply HT; try assumption; [cbv beta; lia|right; auto].
Qed.
Lemma lst_put (t t' : nat -> nat -> nat -> nat -> K) l m i k s E s' m' : lst t l m -> k <= i -> i < R -> nth_error l (i + k * R) = Some s -> hpost m s E s' m' ->
  (forall p c, p < hs i -> c < hs k -> inlow i k p c -> E p c = t' i k p c) -> (forall i' k' p c, k' <= i' -> i' < R -> i' <> i \/ k' <> k -> t' i' k' p c = t i' k' p c) ->
  lst t' (lupd l (i + k * R) s') m'.
Proof.
  intros (tg & HS & HT) Hk Hi Ns HP HE HO. exists (fun i' j' p c => if (i' =? i) && (j' =? k) then E p c else tg i' j' p c).
  split; [eapply (st_put R R rc0 rc0 m0 l0 HL0 Hcl); [exact HS|exact Hi|lia|exact Ns|exact HP|reflexivity]|].
  intros i' j' p c Hi' Hj' Hp Hc Hin. destruct (Nat.eqb_spec i' i) as [->|N1]; [destruct (Nat.eqb_spec j' k) as [->|N2]|]; cbn [andb].
  - apply HE; assumption.
  - rewrite HO; [apply HT; assumption|destruct Hin; lia|exact Hi|auto].
  - rewrite HO; [apply HT; assumption|destruct Hin; lia|exact Hi'|auto].
Qed.
Lemma lst_disj (t : nat -> nat -> nat -> nat -> K) l m i k i' k' s s' : lst t l m -> i < R -> i' < R -> nth_error l (i + k * R) = Some s -> nth_error l (i' + k' * R) = Some s' -> (i <> i' \/ k <> k') -> disj (inh s) (hfp s').
Proof. intros (tg & HS & _) Hi Hi' N1 N2 N. apply (st_disj R R m0 l0 HL0 tg l m i k i' k' s s' HS); assumption. Qed.
Lemma lst_new (t : nat -> nat -> nat -> nat -> K) l m i k s' : lst t l m -> i < R -> k < R -> nth_error (lupd l (i + k * R) s') (i + k * R) = Some s'.
Proof. intros (tg & HS & _) Hi Hk. apply (st_new R R m0 l0 HL0 tg l m i k s' HS Hi Hk). Qed.

Lemma wp_cholstep k l m go s0 (Q : list hmx -> mem K -> Prop) : k < R -> lst (ctgk k) l m -> nth_error l0 (k + k * R) = Some s0 -> chol_ok go s0 ->
  (forall l' m', lst (ctgk (S k)) l' m' -> Q l' m') -> wp TT TT (cholstep O svd rank R k go l) m Q.
Proof.
  intros Hk HS Hs0 Hgo HQ. unfold cholstep.
  destruct (lst_diag _ l m k HS Hk) as (a & Da & Na & A1 & A2 & A3 & Al & A4 & A5 & A6 & A7 & s0' & Hs0' & A8). rewrite Hs0 in Hs0'. injection Hs0' as <-.
  apply wp_bind. rewrite (sget_some _ _ _ Na). cbn [wp]. apply wp_bind. pose proof (hdiag_like _ (Hdg k s0 Hk Hs0) a A8) as A9.
  set (w := csz (prt rc0 k)). assert (Ew : hrows a = w) by (unfold hrows; rewrite A1; reflexivity). assert (Hin : off k + hs k <= n) by (pose proof (nsum_in hs k R Hk); cbv beta in *; lia). cbv beta in Hin. fold w in Hin. clear A7.
  assert (Hnz : forall i, i < w -> CFB k k i i <> f0).
  { intros i Hi. apply (pos_n0 O (ql_r O H)), Hpos. unfold w in *. lia. }
  eapply (Hgo a m Da (CFB k k) _ A8 A3 A4 A5 A6 A9).
  { rewrite Ew. lia. }
  { rewrite Ew. intros p q Hq Hp. rewrite Al by assumption. unfold ctgk, ctgd. rewrite !Nat.ltb_irrefl. apply (scc_diag L n (off k) w F p q Hin); lia. }
  { rewrite Ew. intros p Hp. apply Hpos. lia. }
  rewrite Ew. intros Ek akk m1 HP HEk. assert (HLk : hlike s0 akk) by (eapply hlike_trans; [exact A8|apply HP]). pose proof (hdiag_like _ (Hdg k s0 Hk Hs0) akk HLk) as Hdk.
  set (dn3 := fun v i j => (j <? k) || (j =? k) && (i <? v)).
  set (dn4 := fun i j : nat => (j <=? k)).
  set (sn4 := fun u v i j => if (j <? u) || (j =? u) && (i <? v) then S k else k).
  assert (HS1 : lst (ctgd (dn3 (k + 1)) (fun _ _ => k)) (lupd l (k + k * R) akk) m1).
  { eapply lst_put; [exact HS|lia|exact Hk|exact Na|exact HP| |].
    - intros p c Hp Hc [Hl|[_ Hl]]; [lia|]. rewrite HEk by assumption. unfold ctgd, dn3. cases_nat.
    - intros i' k' p c Hk' Hi' N. unfold ctgk, ctgd, dn3. cases_nat. }
  pose proof (lst_new _ l m k k akk HS Hk Hk) as Nk1. generalize dependent (lupd l (k + k * R) akk). intros l1 HS1 Nk1.
  apply wp_bind. apply (wp_forS (fun v l' m' => lst (ctgd (dn3 v) (fun _ _ => k)) l' m' /\ nth_error l' (k + k * R) = Some akk)).
  { auto. }
  { clear l m HS Na HP A3 A4. intros v l m Hv [HS Nk]. assert (Hv' : k < v < R) by lia. clear Hv. destruct Hv' as [Hkv Hv].
    destruct (lst_get _ l m v k HS Hkv Hv) as (x & Nx & X1 & X2 & X3 & X4 & X5 & X6 & X7).
    destruct (lst_diag _ l m k HS Hk) as (ak & Dk & Nk' & B1 & B2 & B3 & Bl & B4 & B5 & B6 & B7 & _). rewrite Nk in Nk'. injection Nk' as <-.
    apply wp_bind. rewrite (sget_some _ _ _ Nx). cbn [wp]. apply wp_bind. unfold triangularinvmul_hmatrix.
    assert (Edk : forall p q, p < w -> q < w -> lo Dk p q = lo (CFB k k) p q).
    { intros p q Hp Hq. destruct (Nat.le_gt_cases q p) as [Hl|Hl]; [rewrite !loc_at by exact Hl|rewrite !loc_0 by exact Hl; reflexivity].
      rewrite Bl by assumption. unfold ctgd, dn3. cases_nat. }
    eapply (wp_tri_h L O H HZ orth good chosen dom svd rank Hsvd Hrank Hdom Hless true true false false true x akk x m Dk (tr true (ctgd (dn3 v) (fun _ _ => k) v k))); try eassumption.
    - eapply hlike_refl. exact X4.
    - apply hrep_htri; assumption.
    - eapply hrep_ext; [exact X3|]. intros i j _ _. apply (tr_tr RL).
    - cbn [trc]. congruence.
    - apply (lst_disj _ l m k k v k akk x HS); try assumption. left. lia.
    - discriminate.
    - intros _. right. unfold hrows. rewrite B1. fold w. intros i Hi. rewrite Bl by (unfold w in *; lia). unfold ctgd, dn3. rewrite Nat.ltb_irrefl, Nat.eqb_refl. replace (k <? v) with true by (symmetry; apply Nat.ltb_lt; exact Hkv). cbn [andb orb]. apply Hnz, Hi.
    - intros E x' m' HE HPx. cbn [trc tcc] in HE. cbn [wp]. split.
      2:{ rewrite lupd_nth. destruct (Nat.eqb_spec (k + k * R) (v + k * R)) as [E0|E0]; [lia|exact Nk]. }
      eapply lst_put; [exact HS|lia|exact Hv|exact Nx|exact HPx| |].
      2:{ intros i' k' p c Hk' Hi' N. unfold ctgd, dn3. cases_nat. }
      intros p c Hp Hc _. replace (ctgd (dn3 (S v)) (fun _ _ => k) v k p c) with (CFB v k p c) by (unfold ctgd, dn3; cases_nat).
      rewrite X1, X2 in HE. fold w in HE. cbv beta in Hp, Hc. fold w in Hc. cbn [tr]. rewrite <- (rl_conj_conj K RL (CFB v k p c)). f_equal. symmetry.
      symmetry. revert c Hc. apply (tri_sol L true false false w (CFB k k) (fun q => E q p) (fun q => fconj (CFB v k p q))); [auto|].
      intros c Hc. specialize (HE c p Hc Hp). cbv beta iota in HE. transitivity (sum w (fun q => tr false (lo Dk) c q * E q p)%F).
      { apply sum_ext. intros q Hq. cbn [tr]. rewrite Edk by assumption. reflexivity. }
      rewrite HE. cbn [tr]. replace (ctgd (dn3 v) (fun _ _ => k) v k p c) with (CSB k v k p c) by (unfold ctgd, dn3; cases_nat).
      unfold CSB. rewrite (scc_col L n (off k) w F c _ Hin Hc) by (pose proof (off_le rc0 k v Hkv); cbv beta in *; unfold w; lia).
      rewrite (sum_conj RL). apply sum_ext. intros q _. rewrite (rl_conj_mul K RL), (rl_conj_conj K RL). unfold CFB. ring. }
  clear l m HS Na HP A3 A4 l1 HS1 Nk1 m1. intros l1 m1 [HS1 _]. replace (k + 1 + (R - (k + 1))) with R in HS1 by lia.
  (* the remaining blocks *)
  assert (Enext : forall u v p c, k < u -> k < v -> CSB (S k) v u p c = (CSB k v u p c + - (1) * sum w (fun q => CFB v k p q * fconj (CFB u k c q)))%F).
  { intros u v p c Hu Hv. unfold CSB, CFB. cbn [nsum]. fold w. apply (scc_next L n (off k) w F); [exact Hin| |]; [pose proof (off_le rc0 k v Hv)|pose proof (off_le rc0 k u Hu)]; cbv beta in *; unfold w; lia. }
  apply (wp_forS (fun u l' m' => lst (ctgd dn4 (sn4 u 0)) l' m')).
  { eapply lst_ext; [exact HS1|]. intros i j p c Hj Hi. unfold ctgd, dn3, dn4, sn4. cases_nat. }
  { clear l1 m1 HS1. intros u l m Hu HS. assert (Hu' : k < u < R) by lia. clear Hu. destruct Hu' as [Hku Hu].
    destruct (lst_get _ l m u k HS Hku Hu) as (x & Nx & X1 & X2 & X3 & X4 & X5 & X6 & X7).
    destruct (lst_diag _ l m u HS Hu) as (z & Dz & Nz & Z1 & Z2 & Z3 & Zl & Z4 & Z5 & Z6 & Z7 & s1 & Hs1 & Z8).
    apply wp_bind. rewrite (sget_some _ _ _ Nx). cbn [wp]. apply wp_bind. rewrite (sget_some _ _ _ Nz). cbn [wp]. apply wp_bind.
    pose proof (hdiag_like _ (Hdg u s1 Hu Hs1) z Z8) as Z9. assert (Hdj : disj (inh x) (hfp z)) by (apply (lst_disj _ l m u k u u x z HS); try assumption; right; lia).
    assert (Ez : hrows z = csz (prt rc0 u)) by (unfold hrows; rewrite Z1; reflexivity).
    eapply (wp_addmul_lower L O H HZ orth good chosen dom svd rank Hsvd Hrank Hdom Hless (- (1))%F false true); try eassumption.
    - rewrite (fconj_opp RL), (fconj_1 RL). reflexivity.
    - reflexivity.
    - cbn [trc]. congruence.
    - cbn [tcc]. congruence.
    - reflexivity.
    - intros E z' m2 HPz HEz. rewrite Ez in HEz. cbn [tcc] in HEz. rewrite X2 in HEz. fold w in HEz.
      assert (HS2 : lst (ctgd dn4 (sn4 u (u + 1))) (lupd l (u + u * R) z') m2).
      { eapply lst_put; [exact HS|lia|exact Hu|exact Nz|exact HPz| |].
        - intros p c Hp Hc [Hl|[_ Hl]]; [lia|]. cbv beta in Hp. rewrite HEz by assumption. rewrite Zl by assumption. unfold prodf. cbn [tr].
          replace (ctgd dn4 (sn4 u (u + 1)) u u p c) with (CSB (S k) u u p c) by (unfold ctgd, dn4, sn4; cases_nat). rewrite Enext by assumption.
          replace (ctgd dn4 (sn4 u 0) u u p c) with (CSB k u u p c) by (unfold ctgd, dn4, sn4; cases_nat). f_equal. f_equal.
          apply sum_ext. intros q _. unfold ctgd, dn4. rewrite Nat.leb_refl. reflexivity.
        - intros i' k' p c Hk' Hi' N. unfold ctgd, dn4, sn4. cases_nat. }
      assert (Nx2 : nth_error (lupd l (u + u * R) z') (u + k * R) = Some x) by (apply (st_keep R R l0 HL0); [exact Hu|exact Hu|right; lia|exact Nx]).
      generalize dependent (lupd l (u + u * R) z'). intros l2 HS2 Nx2.
      apply (wp_forS (fun v l' m' => lst (ctgd dn4 (sn4 u v)) l' m' /\ nth_error l' (u + k * R) = Some x)).
      + split; [exact HS2|exact Nx2].
      + clear m2 l2 HS2 Nx2 HPz HS Nx X3 X4 X7 Z3 Z4 Z7 Nz Hdj m. intros v l2 m Hv [HS Nx]. assert (Hv' : u < v < R) by lia. clear Hv. destruct Hv' as [Huv Hv].
        destruct (lst_get _ l2 m u k HS Hku Hu) as (x' & Nx' & _ & _ & X3 & X4 & _ & _ & X7). rewrite Nx in Nx'. injection Nx' as <-.
        destruct (lst_get _ l2 m v k HS ltac:(lia) Hv) as (y & Ny & Y1 & Y2 & Y3 & Y4 & Y5 & Y6 & Y7).
        destruct (lst_get _ l2 m v u HS Huv Hv) as (z1 & Nz1 & W1 & W2 & W3 & W4 & W5 & W6 & W7).
        apply wp_bind. rewrite (sget_some _ _ _ Ny). cbn [wp]. apply wp_bind. rewrite (sget_some _ _ _ Nz1). cbn [wp]. apply wp_bind.
        eapply (wp_addmul L O H HZ orth good chosen dom svd rank Hsvd Hrank Hdom Hless (- (1))%F false true y x z1 m); try eassumption.
        * cbn [trc]. congruence.
        * cbn [tcc]. congruence.
        * cbn [trc tcc]. congruence.
        * apply (lst_disj _ l2 m v k v u y z1 HS); try assumption. right. lia.
        * apply (lst_disj _ l2 m u k v u x z1 HS); try assumption. left. lia.
        * intros z2 m' HP2. cbn [wp]. split.
          2:{ apply (st_keep R R l0 HL0); [exact Hu|exact Hv|left; lia|exact Nx]. }
          eapply lst_put; [exact HS|lia|exact Hv|exact Nz1|exact HP2| |].
          2:{ intros i' k' p c Hk' Hi' N. unfold ctgd, dn4, sn4. cases_nat. }
          intros p c Hp Hc _. unfold prodf. cbn [tr tcc]. rewrite Y2. fold w.
          replace (ctgd dn4 (sn4 u (S v)) v u p c) with (CSB (S k) v u p c) by (unfold ctgd, dn4, sn4; cases_nat). rewrite Enext by lia.
          replace (ctgd dn4 (sn4 u v) v u p c) with (CSB k v u p c) by (unfold ctgd, dn4, sn4; cases_nat). f_equal. f_equal.
          apply sum_ext. intros q _. unfold ctgd, dn4. rewrite Nat.leb_refl. reflexivity.
      + intros l' m' [HS' _]. eapply lst_ext; [exact HS'|]. intros i j p c Hj Hi. unfold ctgd, dn4, sn4. cases_nat. }
  intros l' m' HS'. apply HQ. eapply lst_ext; [exact HS'|]. intros i j p c Hj Hi. unfold ctgk, ctgd, dn4, sn4. cases_nat.
Qed.
End Step.

Lemma wp_chol_h s0 : chol_ok (choldecomp_h O svd rank s0) s0.
Proof.
  induction s0 as [s0 IH] using hsize_ind. intros a m D F Q HLk HR HU HS HP Hd H32 HF Hpo HQ.
  destruct Hd as [rc f ds|rc l R ds Hd].
  - inversion HLk; subst. cbn [choldecomp_h hm_rc hm_cc hm_f]. rewrite cp_eqb_refl. cbn [passert bind]. unfold hrows in *. cbn [hm_rc] in *.
    pose proof HR as HRx. inversion_clear HRx as [|? ? ? ? ? V1 V2 V3|]. pose proof HU as HUx. inversion_clear HUx as [|? ? ? ? U1 U2 U3|].
    destruct (HP (HM rc rc None (Some f) None 0 0 ds)) as [Hrc _]; [left; reflexivity|]. unfold hrows in Hrc. cbn [hm_rc] in Hrc.
    apply wp_bind. eapply (wp_choldecomp_amatrix L O (ql_r O H) TT TT f D m); [exact U3|intros i j Hi Hj _; apply V3; assumption|intros ? _; exact Logic.I|congruence|lia|rewrite V1; exact H32| |].
    { rewrite V1. intros j Hj. rewrite HF by lia. apply (scc_real L). }
    intros r F' m' Hpo' HV HK. rewrite V1 in Hpo'.
    assert (HC : cholpost O (csz rc) D F 0) by (left; split; [reflexivity|]; split; [apply (scc_sinv L); intros; apply HF; assumption|exact Hpo]).
    destruct (cholpost_unique L O (ql_r O H) _ D F F' 0 r HC Hpo') as [<- HE].
    cbn [Nat.eqb passert bind wp]. apply (HQ (fun i j => if j <=? i then F' i j else D i j)).
    + eapply (hpost_full m rc rc f ds m' _ D); [exact HR|exact HU| |].
      * intros i j Hi Hj. destruct (Nat.leb_spec j i) as [Hl|Hl].
        -- apply HV; try assumption. unfold intri. lia.
        -- rewrite <- (V3 i j Hi Hj). apply HK. intros (i' & j' & Hi' & Hj' & Hij & E). apply ma_inj in E as [<- <-]; [unfold intri in Hij; lia|exact U3|exact Hi|exact Hi'].
      * eapply keeps_mono; [|exact HK]. intros c (i & j & Hi & Hj & _ & ->). exists i, j. auto.
    + intros p q Hq Hp. destruct (Nat.leb_spec q p); [|lia]. symmetry. apply HE; auto.
  - inversion HLk as [| |? ? l0 l' ? ? ? HFl]; subst. cbn [choldecomp_h hm_rc hm_cc hm_f hm_son hm_rsons hm_csons]. rewrite cp_eqb_refl, Nat.eqb_refl. cbn [passert bind]. unfold hrows in *. cbn [hm_rc] in *.
    destruct (square_parts m rc l R ds D HR HS HP) as (R0 & HL0 & ER & Hcl & Hst0 & Hson).
    assert (HLs : length l0 = length l) by (clear - HFl; induction HFl; cbn; congruence).
    apply wp_bind. apply (wp_forS (fun k l' m' => lst R rc m l (ctgk R rc F k) l' m')).
    + exists (fun i j p c => D (nsum i (fun i => csz (prt rc i)) + p) (nsum j (fun i => csz (prt rc i)) + c)). split; [apply (st_start R rc m l HL0 rc ds); [reflexivity|exact Hson|exact HU]|].
      intros i j p c Hi Hj Hp Hc Hin. unfold ctgk, ctgd. cbn [Nat.ltb Nat.leb]. unfold CSB. rewrite ER. cbn [nsum]. cbv beta in Hp, Hc. pose proof (nsum_in (fun i => csz (prt rc i)) i R Hi). cbv beta in *.
      apply HF; [|lia]. destruct Hin as [Hl|[-> Hl]]; [pose proof (nsum_le (fun i => csz (prt rc i)) j i Hl); cbv beta in *; lia|lia].
    + intros k l1 m1 Hk H1. assert (Hk' : k < R) by lia. destruct (nth_ex l (k + k * R)) as (s & Hs); [rewrite HL0; apply pos_lt; lia|]. destruct (nth_ex l0 (k + k * R)) as (s' & Hs'); [rewrite HLs, HL0; apply pos_lt; lia|].
      apply wp_bind. rewrite (sget_map _ _ _ _ Hs'). cbn [wp].
      eapply (wp_cholstep R rc m l HL0 Hcl Hst0 Hd F) with (4 := H1) (5 := Hs); [rewrite ER; exact H32|rewrite ER; exact Hpo|exact Hk'| |auto].
      intros a1 m2 D1 F1 Q1 HL1. apply (IH l0 s' eq_refl (nth_error_In _ _ Hs')). eapply hlike_trans; [exact (BlockP.Forall2_nth _ _ _ HFl _ _ _ Hs' Hs)|exact HL1].
    + intros l' m' (tg & HS' & HT). cbn [wp]. unfold set_sons. cbn. eapply HQ; [eapply st_hpost; [exact HL0|exact Hcl|exact R0|exact ER|exact HS']|].
      eapply low_asm; [exact HL0|exact R0|exact ER|]. intros i j p c Hi Hj Hp Hc Hin. rewrite (HT i j p c) by assumption. unfold ctgk, ctgd. cbn [Nat.add].
      replace (j <? R) with true by (symmetry; apply Nat.ltb_lt; exact Hj). reflexivity.
Qed.
End P.

(** A positive definite matrix has a Cholesky factorization: it is found by the factorization of a
    dense matrix. *)
Section Exists.
Context {K : fops} (L : field_laws K) (O : qops K) (H : qlaws O).
Lemma chol_exists n (f : nat -> nat -> K) : 0 < n -> (N.of_nat n < 2 ^ 32)%N -> (forall j, j < n -> fconj (f j j) = f j j) -> posdef O n (herm f) ->
  exists F, lowerq n f (scc n 0 F) /\ positive O n F.
Proof.
  intros Hn H32 Hre HR. set (A := Mat 0 0 n n n true). set (m := Mem (fun a => Val (f (snd a mod n) (snd a / n))) 1).
  assert (W : wp TT TT (choldecomp_amatrix O A) m (fun _ _ => exists F, lowerq n f (scc n 0 F) /\ positive O n F)).
  { eapply (wp_choldecomp_amatrix L O (ql_r O H) TT TT A f m); [unfold mwf; cbn; lia| |intros ? _; exact Logic.I|reflexivity|exact Hn|exact H32|exact Hre|].
    - intros i j Hi Hj _. cbn in Hi, Hj. unfold get, ma, A, m. cbn. rewrite ?(Nat.mul_comm n j), (proj1 (divp n i j Hi)), (proj2 (divp n i j Hi)). reflexivity.
    - intros r F m' HP _ _. cbn [mrows A] in HP. destruct r as [|r].
      + destruct HP as [(_ & H1 & H2)|(p & E & _)]; [|lia]. exists F. split; [|exact H2]. intros p q Hq Hp. apply (sinv_scc L n F f H1); assumption.
      + exfalso. destruct (cholpost_S L O (ql_r O H) n f F (S r) HP ltac:(lia)) as (H1 & H2 & _). apply H2. eapply (posdef_lead L); [exact H1|exact HR]. }
  apply wp_ends in W. destruct W as (r & m' & _ & HF). exact HF.
Qed.
End Exists.
