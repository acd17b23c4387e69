(** * Inversion of H-matrices: the loops and the recursion *)
From Coq Require Import Arith Lia List Bool Permutation Ring NArith.
From Verif Require Import Fld Ord Prog Arr View Loop Line Spec FactorSpec FactorP4 Cluster Block BlockP Avector Amatrix AvectorP AmatrixP AmatrixP2 Rkmatrix RkSpec RkP Factor Chol CholSpec Qr QrSpec QrP9 Lr LrP
  CbP CbmSpec CbmP CopSpec OrthoP SepP SepP2 Htrunc HtSpec HtP HtP2 HtP3 HtP4 Hmatrix HmSpec HmP HmP3 HmP4 HlibSpec Harith HaSpec HaP HaP2 HaP3 HaP4 HaddSpec HmvP Hadd MgP MgP2 MgP3 HaddP HaddP2 HaddP3 HaddP4 HaddP5 HaddP6 Hmul HmulP HmulP2 HmulP3 HmulP4 HmulP5 Hfac HfacSpec HfacP HfacP2 HfacP3 HfacP4 HfacP5 HcholP2 Hinv HinvSpec HinvP HinvP2 HinvP3.
Import ListNotations.
Local Open Scope nat_scope.

Section P.
Context {K : fops} {G : ofops} (L : field_laws K) (O : qops K) (H : qlaws O) (HZ : exact_zero O).
Context (orth : Prop) (good : nat -> (nat -> K) -> Prop) (chosen : nat -> (nat -> K) -> nat -> Prop) (dom : nat -> nat -> Prop).
Context (svd : mat -> vec -> mat -> mat -> prog K unit) (rank : vec -> prog K nat) (Hsvd : svd_ok orth good dom svd) (Hrank : rank_ok good chosen rank).
Context (Hdom : forall r c, dom r c) (Hless : forall n s k, chosen n s k -> forall l, k <= l < n -> s l = f0).
Notation RL := (fl_ring K L).
Add Ring KringHinv4 : (rl_ring K (fl_ring K L)).
Local Notation hmx := (hmatrix G).
Implicit Types (m : mem K) (a w s : hmx) (l la lw : list hmx) (D E F X Y Z B : nat -> nat -> K) (rc : cptr G).

Definition inv_ok (go : hmx -> hmx -> prog K (hmx * hmx)) (s0 : hmx) : Prop := forall a w m D F B (Q : hmx * hmx -> mem K -> Prop),
  hlike s0 a -> hrep m a D -> hmut m a -> hstd a -> hpos a -> hroom m w -> hmut m w -> hstd w -> hpos w -> hfits a w -> disj (hfp a) (hfp w) ->
  lrinv (hrows a) (hrows a) F D -> (forall i, i < hrows a -> F i i <> f0) -> inverse (hrows a) D B ->
  (forall a' w' m', hrep m' a' B -> hmut m' a' -> hlike a a' -> hroom m' w' -> hmut m' w' -> hlike w w' -> disj (hfp a') (hfp w') ->
     moves m (fun c => hfp a c \/ hfp w c) (fun c => hfp a' c \/ hfp w' c) m' -> Q (a', w') m') ->
  wp TT TT (go a w) m Q.

Lemma hfits_like a w : hfits a w -> forall a' w', hlike a a' -> hlike w w' -> hfits a' w'.
Proof.
  induction 1 as [rc f ds w E1 E2 E3 E4|rc l n ds lw ds' H1 IH]; intros a' w' HA HW.
  - inversion HA; subst. assert (X : hm_rc w' = hm_rc w /\ hm_cc w' = hm_cc w /\ hm_rsons w' = hm_rsons w /\ hm_csons w' = hm_csons w) by (destruct HW; auto). destruct X as (X1 & X2 & X3 & X4). rewrite E2 in X2. rewrite E3 in X3. rewrite E4 in X4. constructor; assumption.
  - inversion HA as [| |? ? ? l' ? ? ? HFa]; subst. inversion HW as [| |? ? ? lw' ? ? ? HFw]; subst. constructor. intros j s' t' Hj Hs' Ht'.
    destruct (nth_ex l (j + j * n)) as (s & Hs); [rewrite (sons_len _ _ HFa); apply nth_error_Some; congruence|]. destruct (nth_ex lw (j + j * n)) as (t & Ht); [rewrite (sons_len _ _ HFw); apply nth_error_Some; congruence|].
    eapply (IH j s t Hj Hs Ht); [exact (BlockP.Forall2_nth _ _ _ HFa _ _ _ Hs Hs')|exact (BlockP.Forall2_nth _ _ _ HFw _ _ _ Ht Ht')].
Qed.

Section Step.
Variables (R : nat) (rc0 : cptr G) (m0 : mem K) (la0 lw0 : list hmx).
Hypothesis HLa : length la0 = R * R.
Hypothesis HLw : length lw0 = R * R.
Hypothesis Hcl : forall (b : bool) i k s, i < R -> k < R -> nth_error (if b then lw0 else la0) (i + k * R) = Some s -> hm_rc s = prt rc0 i /\ hm_cc s = prt rc0 k.
Hypothesis Hst0 : forall (b : bool) s, In s (if b then lw0 else la0) -> hstd s /\ hpos s.
Hypothesis Hfit : forall k s t, k < R -> nth_error la0 (k + k * R) = Some s -> nth_error lw0 (k + k * R) = Some t -> hfits s t.
Variables (F D B : nat -> nat -> K) (T : nat -> nat -> nat -> K).
Local Notation hs := (fun i => csz (prt rc0 i)).
Local Notation n := (nsum R hs).
Local Notation off i := (nsum i hs).
Hypothesis HF : lrinv n n F D.
Hypothesis Hnz : forall i, i < n -> F i i <> f0.
Hypothesis HB : inverse n D B.
Hypothesis HT : forall k, k < R -> inverse (hs k) (fun p q => sc n (off k) F (off k + p) (off k + q)) (T k).
Local Notation pr := (pr R m0 la0 lw0).
Local Notation get := (pr_get R rc0 m0 la0 lw0 HLa HLw Hcl Hst0).
Local Notation ext := (pr_ext R rc0 m0 la0 lw0 HLa HLw Hcl).

Definition CB (k i j p c : nat) : K := sc n (off k) F (off i + p) (off j + c).
Definition BB (i j p c : nat) : K := B (off i + p) (off j + c).
Definition WB (i j p c : nat) : K := if j <? i then wlow n F (off j) (hs j) (T j) (off i + p) c else wupp n F (off i) (hs i) (T i) p (off j + c).
(** During the first loop: the first [kk] diagonal blocks are inverted, [u] are the blocks updated in
    step [k], [v] the blocks of the working storage that are computed. *)
Definition tdn (kk k : nat) (u v : nat -> nat -> bool) (b : bool) (i j : nat) : option (nat -> nat -> K) :=
  if b then (if v i j then Some (WB i j) else None)
  else Some (if (i =? j) && (i <? kk) then T i else if u i j then CB (S k) i j else CB (Nat.min (Nat.min i j) k) i j).
Definition vdn (k i j : nat) : bool := (Nat.min i j <? k) && negb (i =? j).
Definition none (i j : nat) : bool := false.

Lemma in_off k : k < R -> off k + hs k <= n.
Proof. intros Hk. pose proof (nsum_in hs k R Hk). cbv beta in *. lia. Qed.
Lemma le_off k i : k < i -> off k + hs k <= off i.
Proof. intros Hk. apply (nsum_le hs k i Hk). Qed.

Lemma oeq_refl r c (o : option (nat -> nat -> K)) : oeq r c o o.
Proof. destruct o; cbn; auto. Qed.

Lemma wp_invdown k la lw m go s0 (Q : list hmx * list hmx -> mem K -> Prop) : k < R -> pr (tdn k k none (vdn k)) la lw m -> nth_error la0 (k + k * R) = Some s0 -> inv_ok go s0 ->
  (forall la' lw' m', pr (tdn (S k) (S k) none (vdn (S k))) la' lw' m' -> Q (la', lw') m') -> wp TT TT (invdown O svd rank R k go (la, lw)) m Q.
Proof.
  intros Hk HP Hs0 Hgo HQ. unfold invdown.
  destruct (get _ la lw m false k k HP Hk Hk) as (a & Na & A1 & A2 & A3 & A4 & A5 & A6 & s0' & Hs0' & A7). rewrite Hs0 in Hs0'. injection Hs0' as <-.
  destruct (get _ la lw m true k k HP Hk Hk) as (w & Nw & B1 & B2 & B3 & B4 & B5 & B6 & t0 & Ht0 & B7).
  assert (Hdaw : disj (hfp a) (hfp w)).
  { assert (Nft : false <> true) by discriminate. exact (proj1 (pr_dis R m0 la0 lw0 HLa HLw (tdn k k none (vdn k)) la lw m false k k true k k a w HP Hk Hk Hk Hk Na Nw (or_introl Nft))). }
  apply wp_bind. rewrite (sget_some _ _ _ Na). cbn [wp]. apply wp_bind. rewrite (sget_some _ _ _ Nw). cbn [wp]. apply wp_bind.
  set (wk := csz (prt rc0 k)). assert (Ew : hrows a = wk) by (unfold hrows; rewrite A1; reflexivity). pose proof (in_off k Hk) as Hin. cbv beta in Hin. fold wk in Hin.
  eapply (Hgo a w m _ (fun p q => F (off k + p) (off k + q)) (T k) _ A7 A3 A4 A5 A6); [eapply hst_room; exact B3|exact B4|exact B5|exact B6| |exact Hdaw| | | |].
  { eapply hfits_like; [exact (Hfit k s0 t0 Hk Hs0 Ht0)|exact A7|exact B7]. }
  { rewrite Ew. intros p c Hp Hc. unfold none, CB. rewrite Nat.eqb_refl, Nat.ltb_irrefl. cbn [andb]. rewrite !Nat.min_id. apply (sc_diag L n (off k) wk F Hin); assumption. }
  { rewrite Ew. intros p Hp. apply Hnz. lia. }
  { rewrite Ew. eapply inverse_ext; [exact (HT k Hk)| |reflexivity]. intros p c Hp Hc. unfold none, CB. rewrite Nat.eqb_refl, Nat.ltb_irrefl. cbn [andb]. rewrite !Nat.min_id. reflexivity. }
  intros a' w' m1 C1 C2 C3 C4 C5 C6 C7 C8. cbn [fst snd].
  pose proof (pr_put2 R m0 la0 lw0 HLa HLw _ la lw m k k a w (Some (T k)) None a' w' m1 HP Hk Hk Na Nw C1 C2 C3 C4 C5 C6 C7 C8) as HP1.
  set (la1 := lupd la (k + k * R) a') in *. set (lw1 := lupd lw (k + k * R) w') in *. clearbody la1 lw1. clear Na Nw A1 A2 A3 A4 A5 A6 A7 B1 B2 B3 B4 B5 B6 B7 C1 C2 C3 C4 C5 C6 C7 C8 Hdaw HP Ew.
  apply (ext _ (tdn (S k) k none (vdn k))) in HP1.
  2:{ intros b i j Hi Hj. unfold updt, tdn, none, vdn. destruct b; cbn [Bool.eqb andb].
      - destruct (Nat.eqb_spec i k) as [->|]; destruct (Nat.eqb_spec j k) as [->|]; cbn [andb]; try apply oeq_refl. rewrite Nat.eqb_refl. cbn. rewrite andb_false_r. exact Logic.I.
      - destruct (Nat.eqb_spec i k) as [->|N1]; destruct (Nat.eqb_spec j k) as [->|N2]; cbn [andb].
        + rewrite Nat.eqb_refl, (proj2 (Nat.ltb_lt k (S k)) ltac:(lia)). intros p c _ _. reflexivity.
        + destruct (Nat.eqb_spec k j); [lia|]. apply oeq_refl.
        + destruct (Nat.eqb_spec i k); [lia|]. apply oeq_refl.
        + destruct (Nat.eqb_spec i j) as [->|]; [|apply oeq_refl]. cbn [andb]. destruct (Nat.ltb_spec j k); destruct (Nat.ltb_spec j (S k)); try lia; apply oeq_refl. }
  (* the column of the working storage *)
  set (v1 := fun i' i j => vdn k i j || ((j =? k) && (k <? i) && (i <? i'))).
  apply wp_bind. apply (wp_forS (fun i lw m => pr (tdn (S k) k none (v1 i)) la1 lw m)).
  { eapply ext; [exact HP1|]. intros b i j Hi Hj. unfold tdn, v1. destruct b; [|apply oeq_refl]. replace ((j =? k) && (k <? i) && (i <? k + 1)) with false by (symmetry; cases_nat). rewrite orb_false_r. apply oeq_refl. }
  { intros i lw2 m2 Hi HP2. assert (Hi' : k < i < R) by lia. clear HP1. apply wp_bind.
    apply (wp_clear_at R rc0 m0 la0 lw0 HLa HLw Hcl Hst0 (tdn (S k) k none (v1 i)) la1 lw2 m2 true i k); [exact HP2|lia|exact Hk|]. intros lw3 m3 HP3.
    destruct (get _ la1 lw3 m3 false i k HP3 ltac:(lia) Hk) as (x & Nx & _). destruct (get _ la1 lw3 m3 false k k HP3 Hk Hk) as (y & Ny & _).
    apply wp_bind. rewrite (sget_some _ _ _ Nx). cbn [wp]. apply wp_bind. rewrite (sget_some _ _ _ Ny). cbn [wp].
    eapply (wp_addmul_at L O H HZ orth good chosen dom svd rank Hsvd Hrank Hdom Hless R rc0 m0 la0 lw0 HLa HLw Hcl Hst0 1%F _ la1 lw3 m3 true i k false k false); [exact HP3|lia|exact Hk|exact Hk|exact Nx|exact Ny|reflexivity|reflexivity| |left; discriminate|left; discriminate|].
    { unfold updt. rewrite !Nat.eqb_refl. reflexivity. }
    intros lw4 m4 HP4. eapply ext; [exact HP4|]. intros b i1 j1 Hi1 Hj1. unfold updt. destruct b; cbn [Bool.eqb andb]; [|apply oeq_refl].
    destruct (Nat.eqb_spec i1 i) as [E1|N1]; destruct (Nat.eqb_spec j1 k) as [E2|N2]; cbn [andb].
    2-4: unfold tdn, v1; destruct (vdn k i1 j1) eqn:Ev; cbn [orb]; try apply oeq_refl; cases_nat; try apply oeq_refl; congruence.
    subst i1 j1. unfold tdn, v1. rewrite Nat.eqb_refl, (proj2 (Nat.ltb_lt k i)), (proj2 (Nat.ltb_lt i (S i))) by lia. rewrite orb_true_r. cbn [oeq andb]. intros p c Hp Hc.
    destruct (Nat.eqb_spec i k); [lia|]. unfold none. replace (Nat.min (Nat.min i k) k) with k by lia. rewrite (proj2 (Nat.ltb_lt k (S k))) by lia. cbn [andb].
    unfold WB. rewrite (proj2 (Nat.ltb_lt k i)) by lia. unfold wlow, CB. fold wk. ring. }
  clear HP1 lw1 lw m1 m. intros lw1 m1 HP1.
  assert (HP2 : pr (tdn (S k) k none (v1 R)) la1 lw1 m1). { replace (k + 1 + (R - (k + 1))) with R in HP1 by lia. exact HP1. } clear HP1. rename HP2 into HP1.
  (* the row of the working storage *)
  set (v2 := fun j' i j => v1 R i j || ((i =? k) && (k <? j) && (j <? j'))).
  apply wp_bind. apply (wp_forS (fun j lw m => pr (tdn (S k) k none (v2 j)) la1 lw m)).
  { eapply ext; [exact HP1|]. intros b i j Hi Hj. unfold tdn, v2. destruct b; [|apply oeq_refl]. replace ((i =? k) && (k <? j) && (j <? k + 1)) with false by (symmetry; cases_nat). rewrite orb_false_r. apply oeq_refl. }
  { intros j lw2 m2 Hj HP2. assert (Hj' : k < j < R) by lia. clear HP1. apply wp_bind.
    apply (wp_clear_at R rc0 m0 la0 lw0 HLa HLw Hcl Hst0 (tdn (S k) k none (v2 j)) la1 lw2 m2 true k j); [exact HP2|exact Hk|lia|]. intros lw3 m3 HP3.
    destruct (get _ la1 lw3 m3 false k k HP3 Hk Hk) as (x & Nx & _). destruct (get _ la1 lw3 m3 false k j HP3 Hk ltac:(lia)) as (y & Ny & _).
    apply wp_bind. rewrite (sget_some _ _ _ Nx). cbn [wp]. apply wp_bind. rewrite (sget_some _ _ _ Ny). cbn [wp].
    eapply (wp_addmul_at L O H HZ orth good chosen dom svd rank Hsvd Hrank Hdom Hless R rc0 m0 la0 lw0 HLa HLw Hcl Hst0 1%F _ la1 lw3 m3 true k j false k false); [exact HP3|exact Hk|exact Hk|lia|exact Nx|exact Ny|reflexivity|reflexivity| |left; discriminate|left; discriminate|].
    { unfold updt. rewrite !Nat.eqb_refl. reflexivity. }
    intros lw4 m4 HP4. eapply ext; [exact HP4|]. intros b i1 j1 Hi1 Hj1. unfold updt. destruct b; cbn [Bool.eqb andb]; [|apply oeq_refl].
    destruct (Nat.eqb_spec i1 k) as [E1|N1]; destruct (Nat.eqb_spec j1 j) as [E2|N2]; cbn [andb].
    2-4: unfold tdn, v2; destruct (v1 R i1 j1) eqn:Ev; cbn [orb]; try apply oeq_refl; cases_nat; try apply oeq_refl; congruence.
    subst i1 j1. unfold tdn, v2. rewrite Nat.eqb_refl, (proj2 (Nat.ltb_lt k j)), (proj2 (Nat.ltb_lt j (S j))) by lia. rewrite orb_true_r. cbn [oeq andb]. intros p c Hp Hc.
    destruct (Nat.eqb_spec k j); [lia|]. unfold none. replace (Nat.min (Nat.min k j) k) with k by lia. rewrite (proj2 (Nat.ltb_lt k (S k))) by lia. cbn [andb].
    unfold WB. replace (j <? k) with false by (symmetry; apply Nat.ltb_ge; lia). unfold wupp, CB. fold wk. ring. }
  clear HP1 lw1 m1. intros lw1 m1 HP1.
  assert (HP2 : pr (tdn (S k) k none (vdn (S k))) la1 lw1 m1).
  { replace (k + 1 + (R - (k + 1))) with R in HP1 by lia. eapply ext; [exact HP1|]. intros b i j Hi Hj. unfold tdn. destruct b; [|apply oeq_refl].
    replace (vdn (S k) i j) with (v2 R i j); [apply oeq_refl|]. unfold v2, v1, vdn. destruct (Nat.eqb_spec i j) as [->|N]; cbn [negb]; rewrite ?andb_true_r, ?andb_false_r; cbn [orb]; cases_nat. }
  clear HP1. rename HP2 into HP1.
  (* the remaining matrix *)
  set (u2 := fun j' i' i j => (k <? i) && (k <? j) && ((j <? j') || ((j =? j') && (i <? i')))).
  apply wp_bind. apply (wp_forS (fun j la m => pr (tdn (S k) k (u2 j 0) (vdn (S k))) la lw1 m)).
  { eapply ext; [exact HP1|]. intros b i j Hi Hj. unfold tdn, none. destruct b; [apply oeq_refl|]. replace (u2 (k + 1) 0 i j) with false; [apply oeq_refl|]. symmetry. unfold u2. cases_nat. }
  { intros j la2 m2 Hj HP2. assert (Hj' : k < j < R) by lia. clear HP1.
    apply (wp_forS (fun i la m => pr (tdn (S k) k (u2 j i) (vdn (S k))) la lw1 m)).
    { eapply ext; [exact HP2|]. intros b i1 j1 Hi Hj1. unfold tdn. destruct b; [apply oeq_refl|]. replace (u2 j (k + 1) i1 j1) with (u2 j 0 i1 j1); [apply oeq_refl|]. unfold u2. cases_nat. }
    { clear HP2 la2 m2. intros i la2 m2 Hi HP2. assert (Hi' : k < i < R) by lia.
      destruct (get _ la2 lw1 m2 true i k HP2 ltac:(lia) Hk) as (x & Nx & _). destruct (get _ la2 lw1 m2 false k j HP2 Hk ltac:(lia)) as (y & Ny & _).
      apply wp_bind. rewrite (sget_some _ _ _ Nx). cbn [wp]. apply wp_bind. rewrite (sget_some _ _ _ Ny). cbn [wp].
      eapply (wp_addmul_at L O H HZ orth good chosen dom svd rank Hsvd Hrank Hdom Hless R rc0 m0 la0 lw0 HLa HLw Hcl Hst0 (- (1))%F _ la2 lw1 m2 false i j true k false (WB i k)); [exact HP2|lia|exact Hk|lia|exact Nx|exact Ny| |reflexivity|reflexivity|left; discriminate|right; lia|].
      { unfold tdn, vdn. replace ((Nat.min i k <? S k) && negb (i =? k)) with true; [reflexivity|]. symmetry. destruct (Nat.eqb_spec i k); [lia|]. cbn [negb]. rewrite andb_true_r. apply Nat.ltb_lt. lia. }
      intros la3 m3 HP3. eapply ext; [exact HP3|]. intros b i1 j1 Hi1 Hj1. unfold updt. destruct b; cbn [Bool.eqb andb]; [apply oeq_refl|].
      destruct (Nat.eqb_spec i1 i) as [E1|N1]; destruct (Nat.eqb_spec j1 j) as [E2|N2]; cbn [andb].
      2-4: unfold tdn; replace (u2 j (S i) i1 j1) with (u2 j i i1 j1); [apply oeq_refl|]; unfold u2; cases_nat.
      subst i1 j1. unfold tdn. cbn [oeq]. intros p c Hp Hc. replace (u2 j i i j) with false by (symmetry; unfold u2; cases_nat). replace (u2 j (S i) i j) with true by (symmetry; unfold u2; cases_nat).
      replace (u2 j i k j) with false by (symmetry; unfold u2; cases_nat). destruct (Nat.eqb_spec k j) as [|Nkj]; [lia|]. cbn [andb]. replace ((i =? j) && (i <? S k)) with false by (symmetry; cases_nat).
      replace (Nat.min (Nat.min i j) k) with k by lia. replace (Nat.min (Nat.min k j) k) with k by lia.
      unfold CB at 1. change (nsum (S k) hs) with (off k + wk). pose proof (le_off k i ltac:(lia)) as Q1. pose proof (le_off k j ltac:(lia)) as Q2. cbv beta in Q1, Q2. fold wk in Q1, Q2.
      rewrite (sc_step L n F (off k) wk (T k) _ _ Hin (HT k Hk)) by lia. unfold CB. f_equal. f_equal. apply sum_ext. intros r Hr. unfold WB. rewrite (proj2 (Nat.ltb_lt k i)) by lia. reflexivity. }
    clear HP2. intros la3 m3 HP3. replace (k + 1 + (R - (k + 1))) with R in HP3 by lia. eapply ext; [exact HP3|]. intros b i1 j1 Hi1 Hj1. unfold tdn. destruct b; [apply oeq_refl|].
    replace (u2 (S j) 0 i1 j1) with (u2 j R i1 j1); [apply oeq_refl|]. unfold u2. cases_nat. }
  intros la2 m2 HP2. replace (k + 1 + (R - (k + 1))) with R in HP2 by lia. cbn [wp]. apply HQ. eapply ext; [exact HP2|]. intros b i j Hi Hj. unfold tdn. destruct b; [apply oeq_refl|]. cbn [oeq]. intros p c Hp Hc.
  unfold none. destruct ((i =? j) && (i <? S k)) eqn:Ed; [reflexivity|]. unfold u2. destruct (Nat.ltb_spec k i); destruct (Nat.ltb_spec k j); cbn [andb].
  - replace ((j <? R) || ((j =? R) && (i <? 0))) with true by (symmetry; cases_nat). replace (Nat.min (Nat.min i j) (S k)) with (S k) by lia. reflexivity.
  - replace (Nat.min (Nat.min i j) (S k)) with (Nat.min (Nat.min i j) k) by lia. reflexivity.
  - replace (Nat.min (Nat.min i j) (S k)) with (Nat.min (Nat.min i j) k) by lia. reflexivity.
  - replace (Nat.min (Nat.min i j) (S k)) with (Nat.min (Nat.min i j) k) by lia. reflexivity.
Qed.

(** During the second loop: [w] are the blocks of the inverse that are already computed. *)
Definition tup (w : nat -> nat -> bool) (b : bool) (i j : nat) : option (nat -> nat -> K) :=
  if b then (if vdn R i j then Some (WB i j) else None)
  else Some (if w i j then BB i j else if i =? j then T i else CB (Nat.min i j) i j).
Definition sq (k i j : nat) : bool := (k <=? i) && (k <=? j).
Lemma vdn_ne i j : i < R -> j < R -> i <> j -> vdn R i j = true.
Proof. intros Hi Hj Hn. unfold vdn. destruct (Nat.eqb_spec i j); [lia|]. cbn [negb]. rewrite andb_true_r. apply Nat.ltb_lt. lia. Qed.
Lemma off_split k i (f : nat -> K) : S k <= i -> sum (off (S i) - off (S k)) f = (sum (off i - off (S k)) f + sum (hs i) (fun r => f (off i - off (S k) + r)%nat))%F.
Proof.
  intros Hi. assert (Hle : off (S k) <= off i). { destruct (Nat.eq_dec (S k) i) as [<-|]; [lia|]. pose proof (le_off (S k) i ltac:(lia)). cbv beta in *. lia. }
  replace (off (S i) - off (S k)) with (off i - off (S k) + hs i) by (cbn [nsum] in *; lia). apply (sum_app RL).
Qed.
Lemma off_pos k i r : S k <= i -> (off (S k) + (off i - off (S k) + r))%nat = off i + r.
Proof. intros Hi. destruct (Nat.eq_dec (S k) i) as [<-|]; [lia|]. pose proof (le_off (S k) i ltac:(lia)). cbv beta in *. lia. Qed.

Lemma wp_invup k la lw m (Q : list hmx -> mem K -> Prop) : k < R -> pr (tup (sq (S k))) la lw m ->
  (forall la' m', pr (tup (sq k)) la' lw m' -> Q la' m') -> wp TT TT (invup O svd rank R k lw la) m Q.
Proof.
  intros Hk HP HQ. unfold invup. pose proof (in_off k Hk) as Hin. cbv beta in Hin.
  set (w1 := fun i' i j => sq (S k) i j || ((j =? k) && (k <? i) && (i <? i'))).
  apply wp_bind. apply (wp_forS (fun i la m => pr (tup (w1 i)) la lw m)).
  { eapply ext; [exact HP|]. intros b i j Hi Hj. unfold tup, w1. destruct b; [apply oeq_refl|]. replace ((j =? k) && (k <? i) && (i <? k + 1)) with false by (symmetry; cases_nat). rewrite orb_false_r. apply oeq_refl. }
  { intros i la1 m1 Hi HP1. assert (Hi' : k < i < R) by lia. clear HP. apply wp_bind.
    apply (wp_clear_at R rc0 m0 la0 lw0 HLa HLw Hcl Hst0 (tup (w1 i)) la1 lw m1 false i k); [exact HP1|lia|exact Hk|]. intros la2 m2 HP2. cbv iota in HP2.
    set (acc := fun j p c => (- (1) * sum (off j - off (S k)) (fun r => B (off i + p)%nat (off (S k) + r)%nat * wlow n F (off k) (hs k) (T k) (off (S k) + r)%nat c))%F).
    apply (wp_forS (fun j la m => pr (updt (tup (w1 i)) false i k (Some (acc j))) la lw m)).
    { eapply ext; [exact HP2|]. intros b i1 j1 Hi1 Hj1. unfold updt. destruct (Bool.eqb b false && (i1 =? i) && (j1 =? k)); [|apply oeq_refl]. cbn [oeq]. intros p c _ _. unfold acc. replace (k + 1) with (S k) by lia. rewrite Nat.sub_diag. cbn [sum]. ring. }
    { intros j la3 m3 Hj HP3. assert (Hj' : k < j < R) by lia. clear HP2.
      destruct (get _ la3 lw m3 false i j HP3 ltac:(lia) ltac:(lia)) as (x & Nx & _). destruct (get _ la3 lw m3 true j k HP3 ltac:(lia) Hk) as (y & Ny & _).
      apply wp_bind. rewrite (sget_some _ _ _ Nx). cbn [wp]. apply wp_bind. rewrite (sget_some _ _ _ Ny). cbn [wp].
      eapply (wp_addmul_at L O H HZ orth good chosen dom svd rank Hsvd Hrank Hdom Hless R rc0 m0 la0 lw0 HLa HLw Hcl Hst0 (- (1))%F _ la3 lw m3 false i k false j true (BB i j) (WB j k) (acc j)); [exact HP3|lia|lia|exact Hk|exact Nx|exact Ny| | | |right; lia|left; discriminate|].
      { unfold updt. destruct (Nat.eqb_spec j k); [lia|]. rewrite andb_false_r. unfold tup, w1, sq. rewrite (proj2 (Nat.leb_le (S k) i)), (proj2 (Nat.leb_le (S k) j)) by lia. reflexivity. }
      { unfold updt. cbn [Bool.eqb andb]. unfold tup. rewrite vdn_ne by lia. reflexivity. }
      { unfold updt. rewrite !Nat.eqb_refl. reflexivity. }
      intros la4 m4 HP4. cbv iota in HP4. eapply ext; [exact HP4|]. intros b i1 j1 Hi1 Hj1. unfold updt. destruct (Bool.eqb b false && (i1 =? i) && (j1 =? k)); [|apply oeq_refl]. cbn [oeq]. intros p c _ _.
      unfold acc. rewrite (off_split k j) by lia. rewrite (sum_ext (hs j) _ (fun r => BB i j p r * WB j k r c)%F); [ring|]. intros r Hr. unfold BB, WB. rewrite off_pos by lia. rewrite (proj2 (Nat.ltb_lt k j)) by lia. reflexivity. }
    clear HP2. intros la3 m3 HP3. replace (k + 1 + (R - (k + 1))) with R in HP3 by lia. eapply ext; [exact HP3|]. intros b i1 j1 Hi1 Hj1. unfold updt. destruct b; cbn [Bool.eqb andb]; [apply oeq_refl|].
    destruct (Nat.eqb_spec i1 i) as [E1|N1]; destruct (Nat.eqb_spec j1 k) as [E2|N2]; cbn [andb].
    2-4: unfold tup; replace (w1 (S i) i1 j1) with (w1 i i1 j1); [apply oeq_refl|]; unfold w1; destruct (sq (S k) i1 j1); cbn [orb]; [reflexivity|]; cases_nat.
    subst i1 j1. unfold tup. replace (w1 (S i) i k) with true by (symmetry; unfold w1; rewrite Nat.eqb_refl, (proj2 (Nat.ltb_lt k i)), (proj2 (Nat.ltb_lt i (S i))) by lia; apply orb_true_r).
    cbn [oeq]. intros p c Hp Hc. unfold BB, acc. pose proof (in_off i ltac:(lia)) as Q1. pose proof (le_off k i ltac:(lia)) as Q2. cbv beta in Q1, Q2.
    apply (back_col L n F Hnz D B HF HB (off k) (hs k) (T k) Hin (HT k Hk)); [lia|exact Hc]. }
  clear HP la m. intros la m HP. replace (k + 1 + (R - (k + 1))) with R in HP by lia.
  set (w2 := fun j' i j => w1 R i j || ((i =? k) && (k <? j) && (j <? j'))).
  apply wp_bind. apply (wp_forS (fun j la m => pr (tup (w2 j)) la lw m)).
  { eapply ext; [exact HP|]. intros b i j Hi Hj. unfold tup, w2. destruct b; [apply oeq_refl|]. replace ((i =? k) && (k <? j) && (j <? k + 1)) with false by (symmetry; cases_nat). rewrite orb_false_r. apply oeq_refl. }
  { intros j la1 m1 Hj HP1. assert (Hj' : k < j < R) by lia. clear HP. apply wp_bind.
    apply (wp_clear_at R rc0 m0 la0 lw0 HLa HLw Hcl Hst0 (tup (w2 j)) la1 lw m1 false k j); [exact HP1|exact Hk|lia|]. intros la2 m2 HP2. cbv iota in HP2.
    set (acc := fun i p c => (- (1) * sum (off i - off (S k)) (fun r => wupp n F (off k) (hs k) (T k) p (off (S k) + r)%nat * B (off (S k) + r)%nat (off j + c)%nat))%F).
    apply (wp_forS (fun i la m => pr (updt (tup (w2 j)) false k j (Some (acc i))) la lw m)).
    { eapply ext; [exact HP2|]. intros b i1 j1 Hi1 Hj1. unfold updt. destruct (Bool.eqb b false && (i1 =? k) && (j1 =? j)); [|apply oeq_refl]. cbn [oeq]. intros p c _ _. unfold acc. replace (k + 1) with (S k) by lia. rewrite Nat.sub_diag. cbn [sum]. ring. }
    { intros i la3 m3 Hi HP3. assert (Hi' : k < i < R) by lia. clear HP2.
      destruct (get _ la3 lw m3 true k i HP3 ltac:(lia) ltac:(lia)) as (x & Nx & _). destruct (get _ la3 lw m3 false i j HP3 ltac:(lia) ltac:(lia)) as (y & Ny & _).
      apply wp_bind. rewrite (sget_some _ _ _ Nx). cbn [wp]. apply wp_bind. rewrite (sget_some _ _ _ Ny). cbn [wp].
      eapply (wp_addmul_at L O H HZ orth good chosen dom svd rank Hsvd Hrank Hdom Hless R rc0 m0 la0 lw0 HLa HLw Hcl Hst0 (- (1))%F _ la3 lw m3 false k j true i false (WB k i) (BB i j) (acc i)); [exact HP3|exact Hk|lia|lia|exact Nx|exact Ny| | | |left; discriminate|right; lia|].
      { unfold updt. cbn [Bool.eqb andb]. unfold tup. rewrite vdn_ne by lia. reflexivity. }
      { unfold updt. destruct (Nat.eqb_spec i k); [lia|]. rewrite andb_false_r. cbn [andb]. unfold tup, w2, w1, sq. rewrite (proj2 (Nat.leb_le (S k) i)), (proj2 (Nat.leb_le (S k) j)) by lia. reflexivity. }
      { unfold updt. rewrite !Nat.eqb_refl. reflexivity. }
      intros la4 m4 HP4. cbv iota in HP4. eapply ext; [exact HP4|]. intros b i1 j1 Hi1 Hj1. unfold updt. destruct (Bool.eqb b false && (i1 =? k) && (j1 =? j)); [|apply oeq_refl]. cbn [oeq]. intros p c _ _.
      unfold acc. rewrite (off_split k i) by lia. rewrite (sum_ext (hs i) _ (fun r => WB k i p r * BB i j r c)%F); [ring|]. intros r Hr. unfold BB, WB. rewrite off_pos by lia. replace (i <? k) with false by (symmetry; apply Nat.ltb_ge; lia). reflexivity. }
    clear HP2. intros la3 m3 HP3. replace (k + 1 + (R - (k + 1))) with R in HP3 by lia. eapply ext; [exact HP3|]. intros b i1 j1 Hi1 Hj1. unfold updt. destruct b; cbn [Bool.eqb andb]; [apply oeq_refl|].
    destruct (Nat.eqb_spec i1 k) as [E1|N1]; destruct (Nat.eqb_spec j1 j) as [E2|N2]; cbn [andb].
    2-4: unfold tup; replace (w2 (S j) i1 j1) with (w2 j i1 j1); [apply oeq_refl|]; unfold w2; destruct (w1 R i1 j1); cbn [orb]; [reflexivity|]; cases_nat.
    subst i1 j1. unfold tup. replace (w2 (S j) k j) with true by (symmetry; unfold w2; rewrite Nat.eqb_refl, (proj2 (Nat.ltb_lt k j)), (proj2 (Nat.ltb_lt j (S j))) by lia; apply orb_true_r).
    cbn [oeq]. intros p c Hp Hc. unfold BB, acc. pose proof (in_off j ltac:(lia)) as Q1. pose proof (le_off k j ltac:(lia)) as Q2. cbv beta in Q1, Q2.
    apply (back_row L n F Hnz D B HF HB (off k) (hs k) (T k) Hin (HT k Hk)); [exact Hp|lia]. }
  clear HP la m. intros la m HP. replace (k + 1 + (R - (k + 1))) with R in HP by lia.
  set (acc := fun i p c => (T k p c + - (1) * sum (off i - off (S k)) (fun r => B (off k + p)%nat (off (S k) + r)%nat * wlow n F (off k) (hs k) (T k) (off (S k) + r)%nat c))%F).
  assert (Ekk : w2 R k k = false). { unfold w2, w1, sq. cases_nat. }
  apply (wp_forS (fun i la m => pr (updt (tup (w2 R)) false k k (Some (acc i))) la lw m)).
  { eapply ext; [exact HP|]. intros b i1 j1 Hi1 Hj1. unfold updt. destruct b; cbn [Bool.eqb andb]; [apply oeq_refl|]. destruct (Nat.eqb_spec i1 k) as [->|N1]; destruct (Nat.eqb_spec j1 k) as [->|N2]; cbn [andb]; try apply oeq_refl.
    unfold tup. rewrite Ekk, Nat.eqb_refl. cbn [oeq]. intros p c _ _. unfold acc. replace (k + 1) with (S k) by lia. rewrite Nat.sub_diag. cbn [sum]. ring. }
  { intros i la3 m3 Hi HP3. assert (Hi' : k < i < R) by lia. clear HP.
    destruct (get _ la3 lw m3 false k i HP3 ltac:(lia) ltac:(lia)) as (x & Nx & _). destruct (get _ la3 lw m3 true i k HP3 ltac:(lia) Hk) as (y & Ny & _).
    apply wp_bind. rewrite (sget_some _ _ _ Nx). cbn [wp]. apply wp_bind. rewrite (sget_some _ _ _ Ny). cbn [wp].
    eapply (wp_addmul_at L O H HZ orth good chosen dom svd rank Hsvd Hrank Hdom Hless R rc0 m0 la0 lw0 HLa HLw Hcl Hst0 (- (1))%F _ la3 lw m3 false k k false i true (BB k i) (WB i k) (acc i)); [exact HP3|exact Hk|lia|exact Hk|exact Nx|exact Ny| | | |right; lia|left; discriminate|].
    { unfold updt. destruct (Nat.eqb_spec i k); [lia|]. rewrite andb_false_r. unfold tup. replace (w2 R k i) with true; [reflexivity|]. symmetry. unfold w2. rewrite Nat.eqb_refl, (proj2 (Nat.ltb_lt k i)), (proj2 (Nat.ltb_lt i R)) by lia. apply orb_true_r. }
    { unfold updt. cbn [Bool.eqb andb]. unfold tup. rewrite vdn_ne by lia. reflexivity. }
    { unfold updt. rewrite !Nat.eqb_refl. reflexivity. }
    intros la4 m4 HP4. cbv iota in HP4. eapply ext; [exact HP4|]. intros b i1 j1 Hi1 Hj1. unfold updt. destruct (Bool.eqb b false && (i1 =? k) && (j1 =? k)); [|apply oeq_refl]. cbn [oeq]. intros p c _ _.
    unfold acc. rewrite (off_split k i) by lia. rewrite (sum_ext (hs i) _ (fun r => BB k i p r * WB i k r c)%F); [ring|]. intros r Hr. unfold BB, WB. rewrite off_pos by lia. rewrite (proj2 (Nat.ltb_lt k i)) by lia. reflexivity. }
  clear HP. intros la3 m3 HP3. replace (k + 1 + (R - (k + 1))) with R in HP3 by lia. apply HQ. eapply ext; [exact HP3|]. intros b i1 j1 Hi1 Hj1. unfold updt. destruct b; cbn [Bool.eqb andb]; [apply oeq_refl|].
  destruct (Nat.eqb_spec i1 k) as [E1|N1]; destruct (Nat.eqb_spec j1 k) as [E2|N2]; cbn [andb].
  2-4: unfold tup; replace (sq k i1 j1) with (w2 R i1 j1); [apply oeq_refl|]; unfold w2, w1, sq; cases_nat.
  subst i1 j1. unfold tup. replace (sq k k k) with true by (symmetry; unfold sq; rewrite Nat.leb_refl; reflexivity). cbn [oeq]. intros p c Hp Hc. unfold BB, acc.
  apply (back_diag L n F Hnz D B HF HB (off k) (hs k) (T k) Hin (HT k Hk)); assumption.
Qed.
End Step.
End P.
