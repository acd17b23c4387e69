(** * Addition of low-rank and dense matrices to H-matrices *)
From Coq Require Import Arith Lia List Bool Permutation Ring.
From Verif Require Import Fld Ord Prog Arr View Loop Line Spec Cluster Block Avector Amatrix AvectorP AmatrixP AmatrixP2 Rkmatrix RkSpec RkP Factor FactorSpec Chol CholSpec Qr QrSpec
  CbmSpec CbmP CopSpec OrthoP SepP SepP2 Htrunc HtSpec HtP HtP2 HtP3 HtP4 Hmatrix HmSpec HmP HmP4 HaddSpec HmvP Hadd MgP MgP2 MgP3 HaddP.
Import ListNotations.

Section P.
Context {K : fops} {G : ofops} (L : field_laws K) (O : qops K) (H : qlaws O) (HZ : exact_zero O).
Context (orth : Prop) (good : nat -> (nat -> K) -> Prop) (chosen : nat -> (nat -> K) -> nat -> Prop) (dom : nat -> nat -> Prop).
Context (svd : mat -> vec -> mat -> mat -> prog K unit) (rank : vec -> prog K nat) (Hsvd : svd_ok orth good dom svd) (Hrank : rank_ok good chosen rank).
Context (Hdom : forall r c, dom r c) (Hless : forall n s k, chosen n s k -> forall l, k <= l < n -> s l = f0).
Notation RL := (fl_ring K L).
Add Ring KringHad2 : (rl_ring K (fl_ring K L)).
Local Notation hmx := (hmatrix G).
Implicit Types (m : mem K) (h s t : hmx) (l : list hmx) (D E : nat -> nat -> K) (r src : rkm) (rc cc : cptr G).

Lemma truncated_exact (r c : nat) D (D' : nat -> nat -> K) (k : nat) : truncated orth good chosen r c D D' k -> forall i j, i < r -> j < c -> D' i j = D i j.
Proof.
  intros (n & U & s & V & A1 & _ & _ & A3 & _ & _ & A6 & A7) i j Hi Hj.
  rewrite A6, A7 by assumption. replace n with (k + (n - k)) by lia. rewrite (sum_app RL).
  rewrite (sum_0 RL (n - k)); [ring|]. intros q Hl. rewrite (Hless n s k A3) by lia. ring.
Qed.

(** ** Low-rank leaves *)
Lemma rk_cell m r E (P : addr -> Prop) : rkrep m r E -> rk_k r <> 0 -> 0 < mrows (rk_A r) -> 0 < mrows (rk_B r) -> (forall a, P a -> forall o, P (fst a, o)) -> disj (inrk r) P ->
  mblk (rk_A r) < next m /\ mblk (rk_B r) < next m /\ (forall o, ~ P (mblk (rk_A r), o)) /\ forall o, ~ P (mblk (rk_B r), o).
Proof.
  intros HR Hk P1 P2 HP Hd. pose proof HR as (A & B & HA & HB & CA & CB & _).
  assert (IA : inm (rk_A r) (ma (rk_A r) 0 0)) by (exists 0, 0; repeat split; lia). assert (IB : inm (rk_B r) (ma (rk_B r) 0 0)) by (exists 0, 0; repeat split; lia).
  split; [exact (alloc_lt _ _ (inm_alloc _ _ _ _ HA IA))|]. split; [exact (alloc_lt _ _ (inm_alloc _ _ _ _ HB IB))|].
  split; intros o Ho.
  - apply (Hd _ (or_introl IA)). exact (HP _ Ho _).
  - apply (Hd _ (or_intror IB)). exact (HP _ Ho _).
Qed.
Lemma rkblk_all r a o : rkblk r a -> rkblk r (fst a, o).
Proof. intros Ha. exact Ha. Qed.
Lemma wp_add_rk_x alpha src rc cc r ds m D E (Q : rkm -> mem K -> Prop) : let h : hmx := HM rc cc (Some r) None None 0 0 ds in hrep m h D -> hmut m h -> rkrep m src E ->
  mrows (rk_A src) = csz rc -> mrows (rk_B src) = csz cc -> disj (inrk src) (hfp h) ->
  (forall r' m', hpost m h (fun i j => D i j + alpha * E i j)%F (HM rc cc (Some r') None None 0 0 ds) m' -> Q r' m') ->
  wp TT TT (add_rkmatrix O svd rank alpha src r) m Q.
Proof.
  intros h HR HU HS R1 R2 Hd HQ. inversion HR as [? ? ? ? ? Z1 Z2 Z3| |]; subst. inversion HU as [? ? ? ? P1 P2 HO| |]; subst.
  destruct (Nat.eq_dec (rk_k src) 0) as [E0|E0].
  - unfold add_rkmatrix. rewrite (proj2 (Nat.eqb_eq _ _) E0). cbn [wp]. apply HQ. eapply hpost_ext; [apply hpost_refl; [exact HR|exact HU]|].
    intros i j Hi Hj. unfold hrows, hcols in *. cbn in Hi, Hj. destruct HS as (A & B & _ & _ & _ & _ & HE). rewrite HE by lia. rewrite E0. unfold lowrank. cbn [sum]. ring.
  - assert (Hd' : disj (inrk src) (rkblk r)) by (intros a Ha Hb; apply (Hd a Ha), hfp_rk, Hb).
    destruct (rk_cell m src E (rkblk r) HS E0 ltac:(lia) ltac:(lia) (fun a Ha o => Ha) Hd') as (B1 & B2 & N1 & N2).
    apply wp_next. eapply (wp_add_rk L O H HZ orth good chosen dom svd rank Hsvd Hrank alpha src r m D E); [exact HO|exact Z3|exact HS|lia|lia|exact B1|exact B2| | |exact E0|split; apply Hdom|].
    { intros HI. apply (N1 0). unfold rkblk. destruct HI as [HI|[HI|[]]]; [left|right]; symmetry; exact HI. } { intros HI. apply (N2 0). unfold rkblk. destruct HI as [HI|[HI|[]]]; [left|right]; symmetry; exact HI. }
    intros r' m' (D' & T1 & T2 & T3 & T4 & T5 & T6) HN. apply HQ. apply hpost_rk; [exact P1|exact P2|lia|lia|exact HN| |exact T6].
    eapply rkrep_ext; [exact T1|]. intros i j Hi Hj. symmetry. apply (truncated_exact _ _ _ _ _ T5); lia.
Qed.
Lemma mval_cell m (A : mat) f (P : addr -> Prop) : mval m A f -> 0 < mrows A -> 0 < mcols A -> (forall a, P a -> forall o, P (fst a, o)) -> disj (inm A) P -> mblk A < next m /\ forall o, ~ P (mblk A, o).
Proof.
  intros HA P1 P2 HP Hd. assert (IA : inm A (ma A 0 0)) by (exists 0, 0; repeat split; lia). split; [exact (alloc_lt _ _ (inm_alloc _ _ _ _ HA IA))|].
  intros o Ho. apply (Hd _ IA). exact (HP _ Ho _).
Qed.
Lemma wp_add_dense_x alpha (at_ : bool) a fa rc cc r ds m D (Q : rkm -> mem K -> Prop) : let h : hmx := HM rc cc (Some r) None None 0 0 ds in hrep m h D -> hmut m h -> mval m a fa ->
  (if at_ then mcols a else mrows a) = csz rc -> (if at_ then mrows a else mcols a) = csz cc -> disj (inm a) (hfp h) -> fconj alpha = alpha ->
  (forall r' m', hpost m h (fun i j => D i j + alpha * tr at_ fa i j)%F (HM rc cc (Some r') None None 0 0 ds) m' -> Q r' m') ->
  wp TT TT (add_amatrix_rkmatrix O svd rank alpha at_ a r) m Q.
Proof.
  intros h HR HU HS R1 R2 Hd Hal HQ. inversion HR as [? ? ? ? ? Z1 Z2 Z3| |]; subst. inversion HU as [? ? ? ? P1 P2 HO| |]; subst.
  assert (Hd' : disj (inm a) (rkblk r)) by (intros x Ha Hb; apply (Hd x Ha), hfp_rk, Hb).
  destruct (mval_cell m a fa (rkblk r) HS ltac:(destruct at_; lia) ltac:(destruct at_; lia) (fun a Ha o => Ha) Hd') as (B1 & N1).
  apply wp_next. eapply (wp_add_dense L O H HZ orth good chosen dom svd rank Hsvd Hrank alpha at_ a fa r m D); [exact HO|exact Z3|exact HS|exact B1| |destruct at_; lia|destruct at_; lia|apply Hdom|].
  { intros HI. apply (N1 0). unfold rkblk. destruct HI as [HI|[HI|[]]]; [left|right]; symmetry; exact HI. }
  intros r' m' (D' & T1 & T2 & T3 & T4 & T5 & T6) HN. apply HQ. apply hpost_rk; [exact P1|exact P2|lia|lia|exact HN| |exact T6].
  eapply rkrep_ext; [exact T1|]. intros i j Hi Hj. rewrite (truncated_exact _ _ _ _ _ T5 i j) by lia. cbv beta. rewrite Hal. destruct (_ <? _); reflexivity.
Qed.

(** ** Dense leaves *)
Lemma wp_addlow_full alpha src rc cc f ds m D E (Q : unit -> mem K -> Prop) : let h : hmx := HM rc cc None (Some f) None 0 0 ds in hrep m h D -> hmut m h -> rkrep m src E ->
  mrows (rk_A src) = csz rc -> mrows (rk_B src) = csz cc -> disj (inrk src) (hfp h) ->
  (forall m', hpost m h (fun i j => D i j + alpha * E i j)%F h m' -> Q tt m') ->
  wp TT TT (addmul_amatrix alpha false (rk_A src) true (rk_B src) f) m Q.
Proof.
  intros h HR HU HS R1 R2 Hd HQ. inversion HR as [|? ? ? ? ? Z1 Z2 Z3|]; subst. inversion HU as [|? ? ? ? P1 P2 HW|]; subst.
  destruct HS as (A & B & HA & HB & CA & CB & HE).
  eapply (wp_addmul_amatrix RL TT TT alpha false (rk_A src) true (rk_B src) f A B D); [exact HW|exact HA|exact HB|exact Z3| | |apply TTr|apply TTr|apply TTw|lia|lia|cbn iota; lia|].
  { intros a Ha Hb. apply (Hd a (or_introl Ha)), hfp_full, Hb. } { intros a Ha Hb. apply (Hd a (or_intror Ha)), hfp_full, Hb. }
  intros m' HV HK. apply HQ. eapply hpost_full; [exact HR|exact HU| |exact HK]. eapply mval_ext; [exact HV|]. intros i j Hi Hj. cbv beta iota.
  rewrite (proj2 (Nat.ltb_lt i _)), (proj2 (Nat.ltb_lt j _)) by lia. cbn [andb tr]. f_equal. f_equal. rewrite HE by lia. unfold lowrank. rewrite CA. reflexivity.
Qed.
Lemma wp_add_full alpha (at_ : bool) a fa rc cc f ds m D (Q : unit -> mem K -> Prop) : let h : hmx := HM rc cc None (Some f) None 0 0 ds in hrep m h D -> hmut m h -> mval m a fa ->
  (if at_ then mcols a else mrows a) = csz rc -> (if at_ then mrows a else mcols a) = csz cc -> disj (inm a) (hfp h) ->
  (forall m', hpost m h (fun i j => D i j + alpha * tr at_ fa i j)%F h m' -> Q tt m') ->
  wp TT TT (add_amatrix alpha at_ a f) m Q.
Proof.
  intros h HR HU HS R1 R2 Hd HQ. inversion HR as [|? ? ? ? ? Z1 Z2 Z3|]; subst. inversion HU as [|? ? ? ? P1 P2 HW|]; subst.
  eapply (wp_add_amatrix TT TT alpha at_ a f fa D); [exact HW|exact HS|exact Z3| |apply TTr|apply TTw|lia|lia|].
  { intros x Ha Hb. apply (Hd x Ha), hfp_full, Hb. }
  intros m' HV HK. apply HQ. eapply hpost_full; [exact HR|exact HU| |exact HK]. eapply mval_ext; [exact HV|]. intros i j Hi Hj. cbv beta.
  rewrite (proj2 (Nat.ltb_lt i _)), (proj2 (Nat.ltb_lt j _)) by lia. reflexivity.
Qed.

(** ** A low-rank matrix is added to an H-matrix *)
Lemma wp_add_rk_h alpha h : forall src m D E (Q : hmx -> mem K -> Prop), hrep m h D -> hmut m h -> rkrep m src E -> mrows (rk_A src) = hrows h -> mrows (rk_B src) = hcols h -> disj (inrk src) (hfp h) ->
  (forall h' m', hpost m h (fun i j => D i j + alpha * E i j)%F h' m' -> Q h' m') -> wp TT TT (add_rkmatrix_hmatrix O svd rank alpha h src) m Q.
Proof.
  induction h as [h IH] using hsize_ind. intros src m D E Q HR HU HS R1 R2 Hd HQ.
  inversion HR as [rc cc r ds D0 Z1 Z2 Z3|rc cc f ds D0 Z1 Z2 Z3|rc cc l rs cs ds hs ws D0 P1 P2 P3 P4 P5 P6 P7]; subst h; subst D0; unfold hrows, hcols in R1, R2; cbn [hm_rc hm_cc] in R1, R2; cbn [add_rkmatrix_hmatrix].
  all: destruct (Nat.eqb_spec (rk_k src) 0) as [E0|E0];
    [cbn [wp]; apply HQ; (eapply hpost_ext; [apply hpost_refl; [exact HR|exact HU]|]); intros i j Hi Hj; unfold hrows, hcols in *; cbn in Hi, Hj; destruct HS as (A & B & _ & _ & _ & _ & HE); rewrite HE by lia; rewrite E0; unfold lowrank; cbn [sum]; ring|].
  - apply wp_bind. eapply wp_add_rk_x; [exact HR|exact HU|exact HS|exact R1|exact R2|exact Hd|]. intros r' m' HP. cbn [wp]. apply HQ, HP.
  - apply wp_bind. eapply wp_addlow_full; [exact HR|exact HU|exact HS|exact R1|exact R2|exact Hd|]. intros m' HP. cbn [wp]. apply HQ, HP.
  - apply wp_bind. eapply (wp_addparts (init_sub_rkmatrix src) uninit_rkmatrix (fun s => add_rkmatrix_hmatrix O svd rank alpha s)) with (hs := hs) (ws := ws) (D := D) (E := fun i j => (D i j + alpha * E i j)%F) (ds := ds); try eassumption.
    2: { intros l' m' HP. cbn [wp]. apply HQ, HP. }
    intros i j s F1 m1 k Q1 Hi Hj Hs HM HRs HUs B1 B2 HK. unfold init_sub_rkmatrix. cbv zeta. pose proof HS as (A & B & HA & HB & CA & CB & HE).
    assert (HS1 : rkrep m1 src E) by (eapply rkrep_moves; [exact HM|exact HS|]; intros a Ha Hb; apply (Hd a Ha); apply hfp_super; exact Hb).
    apply wp_bind. apply wp_bind, wp_init_sub_amatrix; [lia|lia|]. apply wp_bind, wp_init_sub_amatrix; [lia|lia|]. cbn [wp].
    apply wp_bind. eapply (IH l s eq_refl ltac:(eapply nth_error_In, Hs)); [exact HRs|exact HUs|apply rkrep_sub; [exact HS1|lia|lia]|reflexivity|reflexivity| |].
    { intros a Ha Hb. apply (Hd a).
      - destruct Ha as [Ha|Ha]; [left|right]; (eapply inm_subm; [| |exact Ha]; lia).
      - apply hfp_super. exists (i + j * rs), s. auto. }
    intros h' m2 HP. apply wp_bind. exact (HK h' m2 HP).
Qed.

(** ** A dense matrix is added to an H-matrix *)
Lemma wp_add_am_h alpha h : forall a fa m D (Q : hmx -> mem K -> Prop), fconj alpha = alpha -> hrep m h D -> hmut m h -> mval m a fa -> mrows a = hrows h -> mcols a = hcols h -> disj (inm a) (hfp h) ->
  (forall h' m', hpost m h (fun i j => D i j + alpha * fa i j)%F h' m' -> Q h' m') -> wp TT TT (add_amatrix_hmatrix O svd rank alpha false h a) m Q.
Proof.
  induction h as [h IH] using hsize_ind. intros a fa m D Q Hal HR HU HS R1 R2 Hd HQ.
  inversion HR as [rc cc r ds D0 Z1 Z2 Z3|rc cc f ds D0 Z1 Z2 Z3|rc cc l rs cs ds hs ws D0 P1 P2 P3 P4 P5 P6 P7]; subst h; subst D0; unfold hrows, hcols in R1, R2; cbn [hm_rc hm_cc] in R1, R2; cbn [add_amatrix_hmatrix].
  - apply wp_bind. eapply wp_add_dense_x; [exact HR|exact HU|exact HS|exact R1|exact R2|exact Hd|exact Hal|]. intros r' m' HP. cbn [wp]. apply HQ, HP.
  - apply wp_bind. eapply wp_add_full; [exact HR|exact HU|exact HS|exact R1|exact R2|exact Hd|]. intros m' HP. cbn [wp]. apply HQ, HP.
  - apply wp_bind. eapply (wp_addparts (init_sub_amatrix a) uninit_amatrix (fun s => add_amatrix_hmatrix O svd rank alpha false s)) with (hs := hs) (ws := ws) (D := D) (E := fun i j => (D i j + alpha * fa i j)%F) (ds := ds); try eassumption.
    2: { intros l' m' HP. cbn [wp]. apply HQ, HP. }
    intros i j s F1 m1 k Q1 Hi Hj Hs HM HRs HUs B1 B2 HK.
    assert (HS1 : mval m1 a fa) by (eapply mval_moves; [exact HM|exact HS|]; intros x Ha Hb; apply (Hd x Ha); apply hfp_super; exact Hb).
    apply wp_bind. apply wp_init_sub_amatrix; [lia|lia|].
    apply wp_bind. eapply (IH l s eq_refl ltac:(eapply nth_error_In, Hs)); [exact Hal|exact HRs|exact HUs|apply mval_subm; [exact HS1|lia|lia]|reflexivity|reflexivity| |].
    { intros x Ha Hb. apply (Hd x).
      - eapply inm_subm; [| |exact Ha]; lia.
      - apply hfp_super. exists (i + j * rs), s. auto. }
    intros h' m2 HP. apply wp_bind. exact (HK h' m2 HP).
Qed.

(** ** An H-matrix is added to a dense matrix *)
Lemma wp_add_h_am alpha (at_ : bool) h : forall b m D g (Q : unit -> mem K -> Prop), hrep m h D -> mwf b -> mval m b g -> disj (inh h) (inm b) ->
  (if at_ then mcols b else mrows b) = hrows h -> (if at_ then mrows b else mcols b) = hcols h ->
  (forall m', mval m' b (fun i j => g i j + alpha * tr at_ D i j)%F -> keeps (inm b) m m' -> Q tt m') -> wp TT TT (add_hmatrix_amatrix alpha at_ h b) m Q.
Proof.
  induction h as [h IH] using hsize_ind. intros b m D g Q HR HW Hb Hd R1 R2 HQ.
  inversion HR as [rc cc r ds D0 Z1 Z2 Z3|rc cc f ds D0 Z1 Z2 Z3|rc cc l rs cs ds hs ws D0 P1 P2 P3 P4 P5 P6 P7]; subst h; subst D0; unfold hrows, hcols in R1, R2; cbn [hm_rc hm_cc] in R1, R2; cbn [add_hmatrix_amatrix].
  all: apply wp_bind, wp_assert; [apply Nat.eqb_eq; symmetry; exact R1|]; apply wp_bind, wp_assert; [apply Nat.eqb_eq; symmetry; exact R2|].
  - assert (Hd2 : disj (inrk r) (inm b)) by (intros a Ha; apply Hd; eapply inh_r; [reflexivity|exact Ha]).
    destruct Z3 as (A & B & HA & HB & CA & CB & HE). unfold add_rkmatrix_amatrix.
    destruct (Nat.eqb_spec (rk_k r) 0) as [E0|E0].
    { cbn [wp]. apply HQ; [|apply keeps_refl]. eapply mval_ext; [exact Hb|]. intros i j Hi Hj. cbv beta. replace (tr at_ D i j) with (f0 : K); [ring|].
      destruct at_; cbn [tr]; rewrite HE by lia; rewrite E0; unfold lowrank; cbn [sum]; [symmetry; apply (fconj_0 RL)|reflexivity]. }
    destruct at_; (apply wp_bind, wp_assert; [apply Nat.eqb_eq; lia|]); (apply wp_bind, wp_assert; [apply Nat.eqb_eq; lia|]).
    + eapply (wp_addmul_amatrix RL TT TT alpha false (rk_B r) true (rk_A r) b B A g); [exact HW|exact HB|exact HA|exact Hb| | |apply TTr|apply TTr|apply TTw|lia|lia|cbn iota; lia|].
      { intros a Ha. apply Hd2. right. exact Ha. } { intros a Ha. apply Hd2. left. exact Ha. }
      intros m' HV HK. apply HQ; [|exact HK]. eapply mval_ext; [exact HV|]. intros i j Hi Hj. cbv beta iota.
      rewrite (proj2 (Nat.ltb_lt i _)), (proj2 (Nat.ltb_lt j _)) by lia. cbn [andb tr]. f_equal. f_equal.
      rewrite HE by lia. unfold lowrank. rewrite (sum_conj RL). rewrite CB. apply sum_ext. intros q Hq. rewrite (rl_conj_mul K RL), (rl_conj_conj K RL). ring.
    + eapply (wp_addmul_amatrix RL TT TT alpha false (rk_A r) true (rk_B r) b A B g); [exact HW|exact HA|exact HB|exact Hb| | |apply TTr|apply TTr|apply TTw|lia|lia|cbn iota; lia|].
      { intros a Ha. apply Hd2. left. exact Ha. } { intros a Ha. apply Hd2. right. exact Ha. }
      intros m' HV HK. apply HQ; [|exact HK]. eapply mval_ext; [exact HV|]. intros i j Hi Hj. cbv beta iota.
      rewrite (proj2 (Nat.ltb_lt i _)), (proj2 (Nat.ltb_lt j _)) by lia. cbn [andb tr]. f_equal. f_equal.
      rewrite HE by lia. unfold lowrank. rewrite CA. reflexivity.
  - eapply (wp_add_amatrix TT TT alpha at_ f b D g); [exact HW|exact Z3|exact Hb| |apply TTr|apply TTw|destruct at_; lia|destruct at_; lia|].
    { intros a Ha. apply Hd. eapply inh_f; [reflexivity|exact Ha]. }
    intros m' HV HK. apply HQ; [|exact HK]. eapply mval_ext; [exact HV|]. intros i j Hi Hj. cbv beta.
    rewrite (proj2 (Nat.ltb_lt i _)), (proj2 (Nat.ltb_lt j _)) by (destruct at_; lia). reflexivity.
  - set (val := fun ii jj i j => let p := if at_ then j else i in let q := if at_ then i else j in
        if (q <? nsum jj ws) || ((q <? nsum (S jj) ws) && (p <? nsum ii hs)) then (g i j + alpha * tr at_ D i j)%F else g i j).
    set (INV := fun ii jj m1 => mval m1 b (val ii jj) /\ keeps (inm b) m m1). cbv zeta.
    apply wp_bind. apply (wp_forS (fun jj coff m1 => coff = nsum jj ws /\ INV 0 jj m1)).
    + split; [reflexivity|]. split; [|apply keeps_refl]. eapply mval_ext; [exact Hb|]. intros i j Hi Hj. unfold val. cbn [nsum]. rewrite !(proj2 (Nat.ltb_ge _ 0)) by lia. rewrite andb_false_r. reflexivity.
    + intros jj coff m1 [_ Hj] [-> HI]. cbn in Hj. apply wp_bind. apply (wp_forS (fun ii roff m1 => roff = nsum ii hs /\ INV ii jj m1)).
      * split; [reflexivity|exact HI].
      * intros ii roff m2 [_ Hi] [-> [HV HK]]. cbn in Hi. destruct (nth_ex l (ii + jj * rs) ltac:(rewrite P3; apply pos_lt; lia)) as (s & Hs).
        destruct (nth_ex l ii ltac:(rewrite P3; pose proof (pos_lt ii 0 rs cs ltac:(lia) ltac:(lia)); lia)) as (s0 & Hs0).
        destruct (P6 ii jj s ltac:(lia) ltac:(lia) Hs) as [S1 S2]. assert (S3 : hrows s0 = hs ii) by (apply (P6 ii 0 s0 ltac:(lia) ltac:(lia)); rewrite Nat.mul_0_l, Nat.add_0_r; exact Hs0).
        pose proof (nsum_in hs ii rs ltac:(lia)). pose proof (nsum_in ws jj cs ltac:(lia)).
        apply wp_bind. rewrite (sget_map _ _ _ _ Hs). cbn [wp fst snd].
        set (bs := if at_ then subm b (nsum jj ws) (hcols s) (nsum ii hs) (hrows s) else subm b (nsum ii hs) (hrows s) (nsum jj ws) (hcols s)).
        apply wp_bind. assert (HX : forall X : Prop, X -> X) by auto.
        assert (Hsub : wp TT TT (if at_ then init_sub_amatrix b (hcols s) (nsum jj ws) (hrows s) (nsum ii hs) else init_sub_amatrix b (hrows s) (nsum ii hs) (hcols s) (nsum jj ws)) m2 (fun b1 m3 => b1 = bs /\ m3 = m2)).
        { unfold bs. destruct at_; apply wp_init_sub_amatrix; auto; lia. }
        eapply wp_conseq; [exact Hsub|]. cbv beta. intros b1 m3 [-> ->]. clear Hsub HX.
        assert (Hin : forall a, inm bs a -> inm b a) by (intros a; unfold bs; destruct at_; apply inm_subm; lia).
        apply wp_bind. eapply (IH l s eq_refl ltac:(eapply nth_error_In, Hs) bs m2 _ (fun i j => val ii jj ((if at_ then nsum jj ws else nsum ii hs) + i) ((if at_ then nsum ii hs else nsum jj ws) + j))).
        { eapply hrep_keeps; [apply (P7 ii jj s); [lia|lia|exact Hs]|exact HK|]. intros a Ha. apply Hd. eapply inh_son; [reflexivity|eapply nth_error_In, Hs|exact Ha]. }
        { unfold bs. destruct at_; apply mwf_subm; try exact HW; lia. }
        { unfold bs. destruct at_; apply mval_subm; try exact HV; lia. }
        { intros a Ha Hb'. apply Hin in Hb'. apply (Hd a); [|exact Hb']. eapply inh_son; [reflexivity|eapply nth_error_In, Hs|exact Ha]. }
        { unfold bs. destruct at_; reflexivity. } { unfold bs. destruct at_; reflexivity. }
        intros m3 HV3 HK3. apply wp_bind.
        assert (Hun : wp TT TT (uninit_amatrix bs) m3 (fun _ m4 => m4 = m3)) by (unfold bs; destruct at_; reflexivity).
        eapply wp_conseq; [exact Hun|]. cbv beta. intros _ m4 ->. apply wp_bind. rewrite (sget_map _ _ _ _ Hs0). cbn [wp fst]. split; [cbn [nsum]; lia|]. split.
        { assert (HB2 : mval m3 b (fun i j => if (if at_ then (nsum jj ws <=? i) && (i <? nsum jj ws + hcols s) && (nsum ii hs <=? j) && (j <? nsum ii hs + hrows s) else (nsum ii hs <=? i) && (i <? nsum ii hs + hrows s) && (nsum jj ws <=? j) && (j <? nsum jj ws + hcols s))
             then (g i j + alpha * tr at_ D i j)%F else val ii jj i j)).
          { intros i j Hi' Hj'. destruct at_; unfold bs in *.
            - destruct (_ && _) eqn:EB.
              + rewrite !andb_true_iff, !Nat.leb_le, !Nat.ltb_lt in EB. specialize (HV3 (i - nsum jj ws) (j - nsum ii hs) ltac:(cbn; lia) ltac:(cbn; lia)). rewrite ma_subm in HV3.
                replace (nsum jj ws + (i - nsum jj ws)) with i in HV3 by lia. replace (nsum ii hs + (j - nsum ii hs)) with j in HV3 by lia. rewrite HV3. f_equal. cbn [tr]. f_equal.
                * unfold val. cbn [tr nsum]. rewrite (proj2 (Nat.ltb_ge i _)), (proj2 (Nat.ltb_ge j _)) by lia. rewrite andb_false_r. reflexivity.
                * f_equal. f_equal. replace (nsum ii hs + (j - nsum ii hs)) with j by lia. replace (nsum jj ws + (i - nsum jj ws)) with i by lia. reflexivity.
              + rewrite (proj2 HK3); [apply HV; assumption|]. intros (p & q & Hp & Hq & EE). cbn in Hp, Hq. rewrite ma_subm in EE. apply ma_inj in EE; [|exact HW|lia|lia].
                enough (true = false) by discriminate. rewrite <- EB. symmetry. rewrite !andb_true_iff, !Nat.leb_le, !Nat.ltb_lt. lia.
            - destruct (_ && _) eqn:EB.
              + rewrite !andb_true_iff, !Nat.leb_le, !Nat.ltb_lt in EB. specialize (HV3 (i - nsum ii hs) (j - nsum jj ws) ltac:(cbn; lia) ltac:(cbn; lia)). rewrite ma_subm in HV3.
                replace (nsum ii hs + (i - nsum ii hs)) with i in HV3 by lia. replace (nsum jj ws + (j - nsum jj ws)) with j in HV3 by lia. rewrite HV3. f_equal. cbn [tr]. f_equal.
                * unfold val. cbn [tr nsum]. rewrite (proj2 (Nat.ltb_ge i _)), (proj2 (Nat.ltb_ge j _)) by lia. rewrite andb_false_r. reflexivity.
                * f_equal. replace (nsum ii hs + (i - nsum ii hs)) with i by lia. replace (nsum jj ws + (j - nsum jj ws)) with j by lia. reflexivity.
              + rewrite (proj2 HK3); [apply HV; assumption|]. intros (p & q & Hp & Hq & EE). cbn in Hp, Hq. rewrite ma_subm in EE. apply ma_inj in EE; [|exact HW|lia|lia].
                enough (true = false) by discriminate. rewrite <- EB. symmetry. rewrite !andb_true_iff, !Nat.leb_le, !Nat.ltb_lt. lia. }
          eapply mval_ext; [exact HB2|]. intros i j Hi' Hj'. cbv beta. unfold val. cbn [nsum]. rewrite S1, S2. destruct at_; bsplit; try lia; reflexivity. }
        { eapply keeps_trans; [exact HK|]. eapply keeps_mono; [exact Hin|exact HK3]. }
      * intros roff m2 [-> [HV HK]]. cbn [Nat.add]. apply wp_bind, wp_assert; [apply Nat.eqb_eq, P4|].
        destruct (nth_ex l (jj * rs) ltac:(rewrite P3; pose proof (pos_lt 0 jj rs cs ltac:(lia) ltac:(lia)); lia)) as (s & Hs).
        destruct (P6 0 jj s ltac:(lia) ltac:(lia) Hs) as [_ S2]. apply wp_bind. rewrite (sget_map _ _ _ _ Hs). cbn [wp fst]. split; [cbn [nsum]; lia|]. split; [|exact HK].
        eapply mval_ext; [exact HV|]. intros i j Hi' Hj'. unfold val. cbn [nsum Nat.add]. rewrite P4. rewrite (proj2 (Nat.ltb_ge _ 0)) by lia. rewrite andb_false_r.
        destruct at_; bsplit; try lia; reflexivity.
    + intros coff m1 [-> [HV HK]]. cbn [Nat.add]. unfold passert. rewrite P5, Nat.eqb_refl. cbn [wp]. apply HQ; [|exact HK]. eapply mval_ext; [exact HV|]. intros i j Hi' Hj'. unfold val. cbn [Nat.add]. rewrite P5.
      destruct at_; bsplit; try lia; reflexivity.
Qed.
End P.
