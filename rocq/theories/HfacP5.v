(** * LR factorizations of H-matrices: the loops and the recursion *)
From Coq Require Import Arith Lia List Bool Permutation Ring NArith.
From Verif Require Import Fld Ord Prog Arr View Loop Line Spec FactorSpec FactorP4 Cluster Block BlockP Avector Amatrix AvectorP AmatrixP AmatrixP2 Rkmatrix RkSpec RkP Factor Chol CholSpec Qr QrSpec Lr LrP
  CbP CbmSpec CbmP CopSpec OrthoP SepP SepP2 Htrunc HtSpec HtP HtP2 HtP3 HtP4 Hmatrix HmSpec HmP HmP3 HmP4 HlibSpec Harith HaSpec HaP HaP2 HaP3 HaP4 HaddSpec HmvP Hadd MgP MgP2 MgP3 HaddP HaddP2 HaddP3 HaddP4 HaddP5 HaddP6 Hmul HmulP HmulP2 HmulP3 HmulP4 HmulP5 Hfac HfacSpec HfacP HfacP2 HfacP3 HfacP4.
Import ListNotations.
Local Open Scope nat_scope.

Ltac cases_nat := repeat match goal with
  | |- context [?a =? ?b] => destruct (Nat.eqb_spec a b)
  | |- context [?a <? ?b] => destruct (Nat.ltb_spec a b)
  | |- context [?a <=? ?b] => destruct (Nat.leb_spec a b)
  end; cbn [andb orb]; subst; try lia; try reflexivity.

Section P.
Context {K : fops} {G : ofops} (L : field_laws K) (O : qops K) (H : qlaws O) (HZ : exact_zero O).
Context (orth : Prop) (good : nat -> (nat -> K) -> Prop) (chosen : nat -> (nat -> K) -> nat -> Prop) (dom : nat -> nat -> Prop).
Context (svd : mat -> vec -> mat -> mat -> prog K unit) (rank : vec -> prog K nat) (Hsvd : svd_ok orth good dom svd) (Hrank : rank_ok good chosen rank).
Context (Hdom : forall r c, dom r c) (Hless : forall n s k, chosen n s k -> forall l, k <= l < n -> s l = f0).
Notation RL := (fl_ring K L).
Add Ring KringHfac5 : (rl_ring K (fl_ring K L)).
Local Notation hmx := (hmatrix G).
Notation lo := (tripart true true).
Notation up := (tripart false false).
Implicit Types (m : mem K) (h x y z a : hmx) (l : list hmx) (D E F U V W X Y Z : nat -> nat -> K) (rc cc : cptr G).

Definition lr_ok (go : hmx -> prog K hmx) (s0 : hmx) : Prop := forall a m D F (Q : hmx -> mem K -> Prop),
  hlike s0 a -> hrep m a D -> hmut m a -> hstd a -> hpos a -> hdiag a -> (N.of_nat (hrows a) < 2 ^ 32)%N ->
  lrinv (hrows a) (hrows a) F D -> (forall i, i < hrows a -> F i i <> f0) ->
  (forall a' m', hpost m a F a' m' -> Q a' m') -> wp TT TT (go a) m Q.

(** The equations of a triangular system have one solution. *)
Lemma tri_sol (lower aunit t : bool) n D (x y : nat -> K) : aunit = true \/ (forall i, i < n -> D i i <> f0) ->
  (forall p, p < n -> sum n (fun q => tr t (tripart lower aunit D) p q * x q)%F = sum n (fun q => tr t (tripart lower aunit D) p q * y q)%F) -> forall p, p < n -> x p = y p.
Proof.
  intros Hnz HE. apply (tri_unique L (negb (xorb lower t)) n (tr t (tripart lower aunit D))).
  - intros i j _ _ Hij. apply (tri_0 RL). destruct (xorb lower t); exact Hij.
  - intros i Hi E. assert (E' : tripart lower aunit D i i = f0).
    { destruct t; [|exact E]. cbn [tr] in E. rewrite <- (rl_conj_conj K RL (tripart _ _ _ _ _)), E. apply (fconj_0 RL). }
    unfold tripart in E'. rewrite Nat.eqb_refl in E'. destruct Hnz as [->|Hnz]; [apply (fl_1_neq_0 K L); exact E'|]. destruct aunit; [apply (fl_1_neq_0 K L); exact E'|exact (Hnz i Hi E')].
  - exact HE.
Qed.

Section Step.
Variables (R : nat) (rc0 : cptr G) (m0 : mem K) (l0 : list hmx).
Hypothesis HL0 : length l0 = R * R.
Hypothesis Hcl : forall i k s, i < R -> k < R -> nth_error l0 (i + k * R) = Some s -> hm_rc s = prt rc0 i /\ hm_cc s = prt rc0 k.
Hypothesis Hst0 : forall s, In s l0 -> hstd s /\ hpos s.
Hypothesis Hdg : forall k s, k < R -> nth_error l0 (k + k * R) = Some s -> hdiag s.
Variable F : nat -> nat -> K.
Local Notation hs := (fun i => csz (prt rc0 i)).
Local Notation n := (nsum R hs).
Local Notation off i := (nsum i hs).
Hypothesis H32 : (N.of_nat n < 2 ^ 32)%N.
Hypothesis Hnz : forall i, i < n -> F i i <> f0.
Local Notation st := (st R m0 l0).
Definition FB (i j p c : nat) : K := F (off i + p) (off j + c).
Definition SB (k i j p c : nat) : K := sc n (off k) F (off i + p) (off j + c).
Definition tgd (dn : nat -> nat -> bool) (sn : nat -> nat -> nat) (i j p c : nat) : K := if dn i j then FB i j p c else SB (sn i j) i j p c.
Definition tgk (k : nat) := tgd (fun i j => (i <? k) || (j <? k)) (fun _ _ => k).

Lemma off_in k : k < R -> off k + hs k <= n.
Proof. intros Hk. pose proof (nsum_in hs k R Hk). cbv beta in *. lia. Qed.
Lemma off_le k i : k < i -> off k + hs k <= off i.
Proof. intros Hk. apply (nsum_le hs k i Hk). Qed.
Lemma off_S k : off (S k) = off k + hs k.
Proof. reflexivity. Qed.

Lemma wp_lrstep k l m go s0 (Q : list hmx -> mem K -> Prop) : k < R -> st (tgk k) l m -> nth_error l0 (k + k * R) = Some s0 -> lr_ok go s0 ->
  (forall l' m', st (tgk (S k)) l' m' -> Q l' m') -> wp TT TT (lrstep O svd rank R k go l) m Q.
Proof.
  intros Hk HS Hs0 Hgo HQ. unfold lrstep.
  destruct (st_get R R rc0 rc0 m0 l0 HL0 Hcl Hst0 _ l m k k HS Hk Hk) as (a & Na & A1 & A2 & A3 & A4 & A5 & A6 & A7 & s0' & Hs0' & A8). rewrite Hs0 in Hs0'. injection Hs0' as <-.
  apply wp_bind. rewrite (sget_some _ _ _ Na). cbn [wp]. apply wp_bind. pose proof (hdiag_like _ (Hdg k s0 Hk Hs0) a A8) as A9.
  set (w := csz (prt rc0 k)). assert (Ew : hrows a = w) by (unfold hrows; rewrite A1; reflexivity). pose proof (off_in k Hk) as Hin. cbv beta in Hin. fold w in Hin. clear A7.
  eapply (Hgo a m _ (FB k k) _ A8 A3 A4 A5 A6 A9).
  { rewrite Ew. lia. }
  { rewrite Ew. intros p q Hp Hq. unfold tgk, tgd. rewrite !Nat.ltb_irrefl. cbn [orb]. apply (sc_diag L n (off k) w F Hin p q Hp Hq). }
  { rewrite Ew. intros p Hp. apply Hnz. lia. }
  intros akk m1 HP. assert (HLk : hlike s0 akk) by (eapply hlike_trans; [exact A8|apply HP]). pose proof (hdiag_like _ (Hdg k s0 Hk Hs0) akk HLk) as Hdk.
  set (dn2 := fun u i j => (i <? k) || (j <? k) || (i =? k) && (j <? u)).
  set (dn3 := fun v i j => (i <? k) || (j <? k) || (i =? k) || (j =? k) && (i <? v)).
  set (dn4 := fun i j => (i <=? k) || (j <=? k)).
  set (sn4 := fun u v i j => if (j <? u) || (j =? u) && (i <? v) then S k else k).
  assert (HS1 : st (tgd (dn2 (k + 1)) (fun _ _ => k)) (lupd l (k + k * R) akk) m1).
  { eapply (st_put R R rc0 rc0 m0 l0 HL0 Hcl); [exact HS|exact Hk|exact Hk|exact Na|exact HP|]. intros i' k' p c Hi' Hk' Hp Hc. unfold tgk, tgd, dn2. cases_nat. }
  pose proof (st_new R R m0 l0 HL0 _ l m k k akk HS Hk Hk) as Nk1. generalize dependent (lupd l (k + k * R) akk). intros l1 HS1 Nk1.
  assert (Htri : forall (lower aunit : bool) tg l2 m2, st tg l2 m2 -> (forall p c, tg k k p c = FB k k p c) -> nth_error l2 (k + k * R) = Some akk ->
    htri lower aunit m2 akk (FB k k) /\ hstd akk /\ hpos akk /\ (forall b, inh akk b -> fst b < next m2) /\ hm_rc akk = prt rc0 k /\ hm_cc akk = prt rc0 k).
  { intros lower aunit tg l2 m2 HS2 Etg N2. destruct (st_get R R rc0 rc0 m0 l0 HL0 Hcl Hst0 _ l2 m2 k k HS2 Hk Hk) as (a' & Na' & B1 & B2 & B3 & B4 & B5 & B6 & B7 & _). rewrite N2 in Na'. injection Na' as <-.
    split; [|auto]. apply hrep_htri; [exact Hdk| |exact B5]. eapply hrep_ext; [exact B3|]. intros p c _ _. symmetry. apply Etg. }
  assert (FBin : forall i, i < w -> FB k k i i <> f0) by (intros i Hi; apply Hnz; lia).
  (* the row *)
  apply wp_bind. apply (wp_forS (fun u l' m' => st (tgd (dn2 u) (fun _ _ => k)) l' m' /\ nth_error l' (k + k * R) = Some akk)); [auto| |].
  { clear l m HS Na HP A3 A4. intros u l m Hu [HS Nk]. assert (Hu' : k < u < R) by lia. clear Hu. assert (Hu : u < R) by lia.
    destruct (st_get R R rc0 rc0 m0 l0 HL0 Hcl Hst0 _ l m k u HS Hk Hu) as (x & Nx & X1 & X2 & X3 & X4 & X5 & X6 & X7 & _).
    destruct (Htri true true _ l m HS) as (T1 & T2 & T3 & T4 & T5 & T6); [intros p c; unfold tgd, dn2; cases_nat|exact Nk|].
    apply wp_bind. rewrite (sget_some _ _ _ Nx). cbn [wp]. apply wp_bind. unfold triangularinvmul_hmatrix.
    eapply (wp_tri_h L O H HZ orth good chosen dom svd rank Hsvd Hrank Hdom Hless true true true false false x akk x m (FB k k)); try eassumption.
    - eapply hlike_refl. exact X4.
    - cbn [trc]. congruence.
    - apply (st_disj R R m0 l0 HL0 _ l m k k k u akk x HS); try assumption. right. lia.
    - discriminate.
    - auto.
    - intros E x' m' HE HPx. cbn [trc tcc tr] in HE, HPx. cbn [wp]. split; [|apply (st_keep R R l0 HL0); [exact Hk|exact Hk|right; lia|exact Nk]].
      eapply (st_put R R rc0 rc0 m0 l0 HL0 Hcl); [exact HS|exact Hk|exact Hu|exact Nx|exact HPx|]. intros i' k' p c Hi' Hk' Hp Hc. unfold tgd at 1, dn2 at 1.
      destruct (Nat.eqb_spec i' k) as [->|Ni]; [|cbn [andb]; unfold tgd, dn2; cases_nat]. destruct (Nat.eqb_spec k' u) as [->|Nu]; [|cbn [andb]; unfold tgd, dn2; cases_nat].
      rewrite !Nat.ltb_irrefl. replace (u <? S u) with true by (symmetry; apply Nat.ltb_lt; lia). cbn [andb]. rewrite orb_true_r.
      rewrite X1, X2 in HE. symmetry. cbv beta in Hc. revert p Hp. apply (tri_sol true true false w (FB k k) (fun q => E q c) (fun q => FB k u q c)); [auto|].
      intros p Hp. specialize (HE p c Hp Hc). fold w in HE. cbn [tr] in *. rewrite HE. unfold tgd, dn2. rewrite !Nat.eqb_refl, !Nat.ltb_irrefl. replace (u <? k) with false by (symmetry; apply Nat.ltb_ge; lia). cbn [andb orb].
      unfold SB. apply (sc_row L n (off k) w F p _ Hin Hp). pose proof (off_le k u ltac:(lia)). cbv beta in *. lia. }
  clear l m HS Na HP A3 A4 l1 HS1 Nk1 m1. intros l1 m1 [HS1 Nk1]. replace (k + 1 + (R - (k + 1))) with R in HS1 by lia.
  (* the column *)
  apply wp_bind. apply (wp_forS (fun v l' m' => st (tgd (dn3 v) (fun _ _ => k)) l' m' /\ nth_error l' (k + k * R) = Some akk)).
  { split; [|exact Nk1]. eapply (st_ext R R rc0 rc0 m0 l0 HL0 Hcl); [exact HS1|]. intros i j p c Hi Hj _ _. unfold tgd, dn2, dn3. cases_nat. }
  { intros v l m Hv [HS Nk]. assert (Hv' : k < v < R) by lia. clear Hv. assert (Hv : v < R) by lia.
    destruct (st_get R R rc0 rc0 m0 l0 HL0 Hcl Hst0 _ l m v k HS Hv Hk) as (x & Nx & X1 & X2 & X3 & X4 & X5 & X6 & X7 & _).
    destruct (Htri false false _ l m HS) as (T1 & T2 & T3 & T4 & T5 & T6); [intros p c; unfold tgd, dn3; cases_nat|exact Nk|].
    apply wp_bind. rewrite (sget_some _ _ _ Nx). cbn [wp]. apply wp_bind. unfold triangularinvmul_hmatrix.
    eapply (wp_tri_h L O H HZ orth good chosen dom svd rank Hsvd Hrank Hdom Hless true false false true true x akk x m (FB k k) (tr true (tgd (dn3 v) (fun _ _ => k) v k))); try eassumption.
    - eapply hlike_refl. exact X4.
    - eapply hrep_ext; [exact X3|]. intros i j _ _. apply (tr_tr RL).
    - cbn [trc]. congruence.
    - apply (st_disj R R m0 l0 HL0 _ l m k k v k akk x HS); try assumption. left. lia.
    - discriminate.
    - intros _. right. intros i Hi. apply FBin. unfold hrows in Hi. rewrite T5 in Hi. exact Hi.
    - intros E x' m' HE HPx. cbn [trc tcc] in HE. cbn [wp]. split; [|apply (st_keep R R l0 HL0); [exact Hk|exact Hv|left; lia|exact Nk]].
      eapply (st_put R R rc0 rc0 m0 l0 HL0 Hcl); [exact HS|exact Hv|exact Hk|exact Nx|exact HPx|]. intros i' k' p c Hi' Hk' Hp Hc. unfold tgd at 1, dn3 at 1.
      destruct (Nat.eqb_spec i' v) as [->|Ni]; [|cbn [andb]; unfold tgd, dn3; cases_nat]. destruct (Nat.eqb_spec k' k) as [->|Nu]; [|cbn [andb]; unfold tgd, dn3; cases_nat].
      replace (v <? S v) with true by (symmetry; apply Nat.ltb_lt; lia). cbn [andb]. rewrite orb_true_r.
      rewrite X1, X2 in HE. fold w in HE. cbv beta in Hp, Hc. fold w in Hc. cbn [tr]. rewrite <- (rl_conj_conj K RL (FB v k p c)). f_equal. symmetry.
      revert c Hc. apply (tri_sol false false true w (FB k k) (fun q => E q p) (fun q => fconj (FB v k p q))); [auto|].
      intros c Hc. specialize (HE c p Hc Hp). cbv beta iota in HE. rewrite HE. cbn [tr]. unfold tgd, dn3. replace (v <? k) with false by (symmetry; apply Nat.ltb_ge; lia). replace (v =? k) with false by (symmetry; apply Nat.eqb_neq; lia).
      rewrite !Nat.ltb_irrefl, Nat.eqb_refl. cbn [andb orb]. unfold SB. rewrite (sc_col L n (off k) w F c _ Hin Hc) by (pose proof (off_le k v ltac:(lia)); cbv beta in *; lia).
      rewrite (sum_conj RL). apply sum_ext. intros q _. rewrite (rl_conj_mul K RL). cbn [tr]. unfold FB. ring. }
  clear HS1 Nk1 l1 m1. intros l1 m1 [HS1 Nk1]. replace (k + 1 + (R - (k + 1))) with R in HS1 by lia.
  (* the remaining blocks *)
  apply (wp_forS (fun u l' m' => st (tgd dn4 (sn4 u 0)) l' m')).
  { eapply (st_ext R R rc0 rc0 m0 l0 HL0 Hcl); [exact HS1|]. intros i j p c Hi Hj _ _. unfold tgd, dn3, dn4, sn4. cases_nat. }
  { clear l1 m1 HS1 Nk1 Htri. intros u l1 m1 Hu HS1. apply (wp_forS (fun v l' m' => st (tgd dn4 (sn4 u v)) l' m')).
    - eapply (st_ext R R rc0 rc0 m0 l0 HL0 Hcl); [exact HS1|]. intros i j p c Hi Hj _ _. unfold tgd, dn4, sn4. cases_nat.
    - clear l1 m1 HS1. intros v l m Hv HS. assert (Hu' : k < u < R) by lia. assert (Hv' : k < v < R) by lia. clear Hu Hv. destruct Hu' as [Hku Hu]. destruct Hv' as [Hkv Hv].
      destruct (st_get R R rc0 rc0 m0 l0 HL0 Hcl Hst0 _ l m v k HS Hv Hk) as (x & Nx & X1 & X2 & X3 & X4 & X5 & X6 & X7 & _).
      destruct (st_get R R rc0 rc0 m0 l0 HL0 Hcl Hst0 _ l m k u HS Hk Hu) as (y & Ny & Y1 & Y2 & Y3 & Y4 & Y5 & Y6 & Y7 & _).
      destruct (st_get R R rc0 rc0 m0 l0 HL0 Hcl Hst0 _ l m v u HS Hv Hu) as (z & Nz & Z1 & Z2 & Z3 & Z4 & Z5 & Z6 & Z7 & _).
      apply wp_bind. rewrite (sget_some _ _ _ Nx). cbn [wp]. apply wp_bind. rewrite (sget_some _ _ _ Ny). cbn [wp]. apply wp_bind. rewrite (sget_some _ _ _ Nz). cbn [wp]. apply wp_bind.
      eapply (wp_addmul L O H HZ orth good chosen dom svd rank Hsvd Hrank Hdom Hless (- (1))%F false false x y z m); try eassumption.
      + cbn [trc]. congruence.
      + cbn [tcc]. congruence.
      + cbn [trc tcc]. congruence.
      + apply (st_disj R R m0 l0 HL0 _ l m v k v u x z HS); try assumption. right. lia.
      + apply (st_disj R R m0 l0 HL0 _ l m k u v u y z HS); try assumption. left. lia.
      + intros z' m' HPz. cbn [wp]. eapply (st_put R R rc0 rc0 m0 l0 HL0 Hcl); [exact HS|exact Hv|exact Hu|exact Nz|exact HPz|]. intros i' k' p c Hi' Hk' Hp Hc. unfold tgd at 1, dn4 at 1, sn4 at 1.
        destruct (Nat.eqb_spec i' v) as [->|Ni]; [|cbn [andb]; unfold tgd, dn4, sn4; cases_nat]. destruct (Nat.eqb_spec k' u) as [->|Nu]; [|cbn [andb]; unfold tgd, dn4, sn4; cases_nat].
        cbn [andb]. unfold prodf. cbn [tr tcc]. rewrite X2. unfold tgd, dn4, sn4. rewrite !Nat.leb_refl, !Nat.ltb_irrefl, !Nat.eqb_refl. replace (v <=? k) with false by (symmetry; apply Nat.leb_gt; lia). replace (u <=? k) with false by (symmetry; apply Nat.leb_gt; lia).
        replace (v <? S v) with true by (symmetry; apply Nat.ltb_lt; lia). cbn [andb orb]. unfold SB, FB. rewrite off_S. fold w.
        apply (sc_next L n (off k) w F); [exact Hin| |]; [pose proof (off_le k v Hkv)|pose proof (off_le k u Hku)]; cbv beta in *; unfold w; lia.
    - intros l' m' HS'. eapply (st_ext R R rc0 rc0 m0 l0 HL0 Hcl); [exact HS'|]. intros i j p c Hi Hj _ _. unfold tgd, dn4, sn4. cases_nat. }
  intros l' m' HS'. apply HQ. eapply (st_ext R R rc0 rc0 m0 l0 HL0 Hcl); [exact HS'|]. intros i j p c Hi Hj _ _. unfold tgk, tgd, dn4, sn4. cases_nat.
Qed.
End Step.

Lemma wp_lr_h s0 : lr_ok (lrdecomp_h O svd rank s0) s0.
Proof.
  induction s0 as [s0 IH] using hsize_ind. intros a m D F Q HLk HR HU HS HP Hd H32 HF Hnz HQ.
  destruct Hd as [rc f ds|rc l R ds Hd].
  - inversion HLk; subst. cbn [lrdecomp_h hm_rc hm_cc hm_f]. rewrite cp_eqb_refl. cbn [passert bind]. unfold hrows in *. cbn [hm_rc] in *.
    pose proof HR as HRx. inversion_clear HRx as [|? ? ? ? ? V1 V2 V3|]. pose proof HU as HUx. inversion_clear HUx as [|? ? ? ? U1 U2 U3|].
    apply wp_bind. eapply (wp_lrdecomp_amatrix L TT TT f D m); [exact U3|exact V3|intros ? _; exact Logic.I|congruence|lia|rewrite V1; exact H32|].
    intros r F' m' Hpo HV HK. rewrite V1 in Hpo. destruct Hpo as [(-> & Hinv & Hnz')|(p & -> & Hp & Hinv & H0 & Hnz')].
    + cbn [Nat.eqb passert bind wp]. apply HQ. apply (hpost_full m rc rc f ds m' F D); [exact HR|exact HU| |exact HK]. eapply mval_ext; [exact HV|]. intros i j Hi Hj.
      rewrite V1 in Hi. rewrite V2 in Hj. symmetry; apply (lrinv_unique L (csz rc) F F' D HF Hinv Hnz); assumption.
    + exfalso. pose proof (lrinv_lead L (csz rc) (csz rc) (p + 1) F D HF ltac:(lia) ltac:(lia)) as HF1. pose proof (lrinv_last L (p + 1) p F' D Hinv ltac:(lia)) as HF2.
      apply (Hnz p Hp). rewrite (lrinv_unique L (p + 1) F F' D HF1 HF2) by (try lia; intros; apply Hnz; lia). exact H0.
  - inversion HLk as [| |? ? l0 l' ? ? ? HFl]; subst. cbn [lrdecomp_h hm_rc hm_cc hm_f hm_son hm_rsons hm_csons]. rewrite cp_eqb_refl, Nat.eqb_refl. cbn [passert bind]. unfold hrows in *. cbn [hm_rc] in *.
    pose proof HR as HRx. inversion_clear HRx as [| |? ? ? ? ? ? hs ws ? P1 P2 P3 P4 P5 P6 P7].
    destruct (std_parts m rc rc l R R ds hs ws D HS P1 P2 P3 P6 P7) as (_ & _ & HRl & _ & HPt).
    assert (ER : nsum R (fun i => csz (prt rc i)) = csz rc) by (rewrite <- P4; apply nsum_ext'; intros i Hi; symmetry; apply HRl, Hi).
    assert (Hcl : forall i k s, i < R -> k < R -> nth_error l (i + k * R) = Some s -> hm_rc s = prt rc i /\ hm_cc s = prt rc k) by (intros i k s Hi Hk Hs; destruct (HPt i k s Hi Hk Hs) as (Y1 & Y2 & _); auto).
    assert (Hst0 : forall s, In s l -> hstd s /\ hpos s) by (intros s Is; split; [eapply hstd_son; [exact HS|reflexivity|exact Is]|eapply hpos_son; [exact HP|reflexivity|exact Is]]).
    assert (HL0 : length l0 = length l) by (clear - HFl; induction HFl; cbn; congruence).
    assert (H0 : st R m l (tgk R rc F 0) l m).
    { eapply forest_extr; [eapply (forest_sons m rc rc l R R ds (fun i => csz (prt rc i)) (fun i => csz (prt rc i)) D P3); [intros i j s Hi Hj Hs; apply (HPt i j s Hi Hj Hs)|exact HU]|].
      intros q s p c Hs Hp Hc. destruct (posinv R R q) as (i & k & Hi & Hk & ->); [rewrite <- P3; apply nth_error_Some; congruence|]. rewrite (partof_at R _ _ D i k p c Hi). destruct (divp R i k Hi) as [-> ->].
      unfold tgk, tgd. cbn [Nat.ltb Nat.leb orb]. unfold SB, sc. cbn [nsum]. rewrite ER, Nat.sub_0_r. destruct (Hcl i k s Hi Hk Hs) as [E1 E2]. unfold hrows, hcols in Hp, Hc. rewrite E1 in Hp. rewrite E2 in Hc.
      apply (lrinv_prod L _ F D HF); [pose proof (nsum_in (fun i => csz (prt rc i)) i R Hi)|pose proof (nsum_in (fun i => csz (prt rc i)) k R Hk)]; cbv beta in *; lia. }
    apply wp_bind. apply (wp_forS (fun k l' m' => st R m l (tgk R rc F k) l' m')); [exact H0| |].
    + clear H0. intros k l1 m1 Hk H1. assert (Hk' : k < R) by lia. destruct (nth_ex l (k + k * R)) as (s & Hs); [rewrite P3; apply pos_lt; lia|]. destruct (nth_ex l0 (k + k * R)) as (s' & Hs'); [rewrite HL0, P3; apply pos_lt; lia|].
      apply wp_bind. rewrite (sget_map _ _ _ _ Hs'). cbn [wp].
      eapply (wp_lrstep R rc m l P3 Hcl Hst0 Hd F) with (4 := H1) (5 := Hs); [rewrite ER; exact H32|rewrite ER; exact Hnz|exact Hk'| |auto].
      intros a1 m2 D1 F1 Q1 HL1. apply (IH l0 s' eq_refl (nth_error_In _ _ Hs')). eapply hlike_trans; [exact (BlockP.Forall2_nth _ _ _ HFl _ _ _ Hs' Hs)|exact HL1].
    + intros l' m' HF'. cbn [wp]. apply HQ. unfold set_sons. cbn.
      eapply (forest_end m rc rc l l' R R ds (fun i => csz (prt rc i)) (fun i => csz (prt rc i)) F); [exact P1|exact P2|exact P3|exact ER|exact ER| |].
      * intros i j s Hi Hj Hs. destruct (Hcl i j s Hi Hj Hs) as [E1 E2]. unfold hrows, hcols. rewrite E1, E2. auto.
      * eapply forest_extr; [exact HF'|]. intros q s p c Hs Hp Hc. destruct (posinv R R q) as (i & k & Hi & Hk & ->); [rewrite <- P3; apply nth_error_Some; congruence|]. rewrite (partof_at R _ _ F i k p c Hi). destruct (divp R i k Hi) as [-> ->].
        unfold tgk, tgd. cbn [Nat.add]. replace (i <? R) with true by (symmetry; apply Nat.ltb_lt; exact Hi). reflexivity.
Qed.
End P.

(** A matrix with regular leading blocks has an LR factorization: it is found by the factorization of
    a dense matrix. *)
Section Exists.
Context {K : fops} (L : field_laws K).
Lemma lr_exists n (f : nat -> nat -> K) : 0 < n -> (N.of_nat n < 2 ^ 32)%N -> (forall j, j <= n -> regular j f) -> exists F, lrinv n n F f /\ forall i, i < n -> F i i <> f0.
Proof.
  intros Hn H32 HR. set (A := Mat 0 0 n n n true). set (m := Mem (fun a => Val (f (snd a mod n) (snd a / n))) 1).
  assert (W : wp TT TT (lrdecomp_amatrix A) m (fun _ _ => exists F, lrinv n n F f /\ forall i, i < n -> F i i <> f0)).
  { eapply (wp_lrdecomp_amatrix L TT TT A f m); [unfold mwf; cbn; lia| |intros ? _; exact Logic.I|reflexivity|exact Hn|exact H32|].
    - intros i j Hi Hj. cbn in Hi, Hj. unfold get, ma, A, m. cbn. rewrite ?(Nat.mul_comm n j), (proj1 (divp n i j Hi)), (proj2 (divp n i j Hi)). reflexivity.
    - intros r F m' HP _ _. cbn [mrows A] in HP. destruct r as [|r].
      + destruct HP as [(_ & H1 & H2)|(p & E & _)]; [eauto|lia].
      + exfalso. pose proof (lrpost_S L n f F (S r) HP ltac:(lia)) as HS. assert (Hr : S r <= n) by (destruct HP as [(E & _)|(p & E & Hp & _)]; [discriminate|lia]).
        apply (regular_singular (S r) f (HR (S r) Hr)). apply HS. }
  apply wp_ends in W. destruct W as (r & m' & _ & HF). exact HF.
Qed.
End Exists.
