(** * LR factorizations of H-matrices *)
From Coq Require Import Arith Lia List Bool Permutation Ring NArith.
From Verif Require Import Fld Ord Prog Arr View Loop Line Spec FactorSpec FactorP4 Cluster Block BlockP Avector Amatrix AvectorP AmatrixP AmatrixP2 Rkmatrix RkSpec RkP Factor Chol CholSpec Qr QrSpec Lr LrP
  CbP CbmSpec CbmP CopSpec OrthoP SepP SepP2 Htrunc HtSpec HtP HtP2 HtP3 HtP4 Hmatrix HmSpec HmP HmP3 HmP4 HlibSpec Harith HaSpec HaP HaP2 HaP3 HaP4 HaddSpec HmvP Hadd MgP MgP2 MgP3 HaddP HaddP2 HaddP3 HaddP4 HaddP5 HaddP6 Hmul HmulP HmulP2 HmulP3 HmulP4 HmulP5 Hfac HfacSpec HfacP HfacP2 HfacP3.
Import ListNotations.
Local Open Scope nat_scope.

Lemma divp R i k : i < R -> (i + k * R) mod R = i /\ (i + k * R) / R = k.
Proof. intros Hi. rewrite Nat.mod_add, Nat.mod_small by lia. rewrite Nat.div_add, Nat.div_small by lia. auto. Qed.
Lemma posinv R C n : n < R * C -> exists i k, i < R /\ k < C /\ n = i + k * R.
Proof. intros Hn. destruct (tidx_inv false R C n Hn) as (i & k & Hi & Hk & E). eauto. Qed.


(** ** The state of the submatrices during a factorization *)
Section St.
Context {K : fops} {G : ofops}.
Local Notation hmx := (hmatrix G).
Implicit Types (m : mem K) (h s x y z a : hmx) (l : list hmx) (D E F U V W X Y Z : nat -> nat -> K) (r : rkm) (rc cc : cptr G).
Variables (R C : nat) (rc0 cc0 : cptr G) (m0 : mem K) (l0 : list hmx).
Hypothesis HL0 : length l0 = R * C.
Hypothesis Hcl : forall i k s, i < R -> k < C -> nth_error l0 (i + k * R) = Some s -> hm_rc s = prt rc0 i /\ hm_cc s = prt cc0 k.
Hypothesis Hst0 : forall s, In s l0 -> hstd s /\ hpos s.
Local Notation hs i := (csz (prt rc0 i)).
Local Notation ws k := (csz (prt cc0 k)).

Definition st (tg : nat -> nat -> nat -> nat -> K) l m : Prop := forest m0 l0 l (fun n => tg (n mod R) (n / R)) m.

Lemma st_ext (tg tg' : nat -> nat -> nat -> nat -> K) l m : st tg l m -> (forall i k p c, i < R -> k < C -> p < hs i -> c < ws k -> tg' i k p c = tg i k p c) -> st tg' l m.
Proof.
  intros HF HE. eapply forest_extr; [exact HF|]. intros n s a b Hs Ha Hb. destruct (posinv R C n) as (i & k & Hi & Hk & ->); [rewrite <- HL0; apply nth_error_Some; congruence|].
  destruct (divp R i k Hi) as [-> ->]. destruct (Hcl i k s Hi Hk Hs) as [E1 E2]. unfold hrows, hcols in *. rewrite E1 in Ha. rewrite E2 in Hb. apply HE; assumption.
Qed.
Lemma st_get tg l m i k : st tg l m -> i < R -> k < C -> exists s, nth_error l (i + k * R) = Some s /\
  hm_rc s = prt rc0 i /\ hm_cc s = prt cc0 k /\ hrep m s (tg i k) /\ hmut m s /\ hstd s /\ hpos s /\ (forall b, inh s b -> fst b < next m) /\ exists s0, nth_error l0 (i + k * R) = Some s0 /\ hlike s0 s.
Proof.
  intros HF Hi Hk. destruct (nth_ex l (i + k * R)) as (s & Hs). { rewrite (fo_len _ _ _ _ _ HF), HL0. apply pos_lt; lia. }
  destruct (forest_get _ _ _ _ _ _ _ HF Hs) as (s0 & H0 & H1 & H2 & H3). destruct (divp R i k Hi) as [E1 E2]. rewrite E1, E2 in H2. exists s. split; [exact Hs|].
  destruct (hlike_cl _ _ H1) as [C1 C2]. destruct (Hcl i k s0 Hi Hk H0) as [C3 C4]. destruct (Hst0 s0 (nth_error_In _ _ H0)) as [S1 S2].
  split; [congruence|]. split; [congruence|]. split; [exact H2|]. split; [exact H3|]. split; [eapply hstd_like; eassumption|]. split; [eapply hpos_like; eassumption|].
  split; [|eauto]. intros b Hb. eapply hfp_lt; [exact H2|exact H3|]. apply inh_hfp. exact Hb.
Qed.
Lemma st_put (tg tg' : nat -> nat -> nat -> nat -> K) l m i k s E s' m' : st tg l m -> i < R -> k < C -> nth_error l (i + k * R) = Some s -> hpost m s E s' m' ->
  (forall i' k' p c, i' < R -> k' < C -> p < hs i' -> c < ws k' -> tg' i' k' p c = if (i' =? i) && (k' =? k) then E p c else tg i' k' p c) -> st tg' (lupd l (i + k * R) s') m'.
Proof.
  intros HF Hi Hk Hs HP HE. pose proof (forest_step _ _ _ _ _ _ _ _ _ _ HF Hs HP) as HF'. eapply forest_extr; [exact HF'|].
  intros n s1 a b Hs1 Ha Hb. destruct (posinv R C n) as (i' & k' & Hi' & Hk' & ->); [rewrite <- HL0; apply nth_error_Some; congruence|].
  destruct (Hcl i' k' s1 Hi' Hk' Hs1) as [E1 E2]. unfold hrows, hcols in *. rewrite E1 in Ha. rewrite E2 in Hb. destruct (divp R i' k' Hi') as [-> ->]. rewrite HE by assumption.
  destruct (Nat.eqb_spec (i' + k' * R) (i + k * R)) as [Et|Et].
  - apply pos_inj in Et as [-> ->]; [|assumption|assumption]. rewrite !Nat.eqb_refl. reflexivity.
  - assert (Ef : (i' =? i) && (k' =? k) = false). { apply Bool.not_true_iff_false. rewrite andb_true_iff, !Nat.eqb_eq. intros [-> ->]. apply Et. reflexivity. }
    rewrite Ef. reflexivity.
Qed.
Lemma st_disj tg l m i k i' k' s s' : st tg l m -> i < R -> i' < R -> nth_error l (i + k * R) = Some s -> nth_error l (i' + k' * R) = Some s' -> (i <> i' \/ k <> k') -> disj (hfp s) (hfp s') /\ disj (inh s) (hfp s').
Proof.
  intros HF Hi Hi' Hs Hs' N. assert (Hd : disj (hfp s) (hfp s')). { eapply (fo_dis _ _ _ _ _ HF); [exact Hs|exact Hs'|]. intros E. apply pos_inj in E; try assumption. lia. }
  split; [exact Hd|]. intros b Hb. apply Hd, inh_hfp, Hb.
Qed.
Lemma st_keep l i k i' k' s s' : i < R -> i' < R -> (i <> i' \/ k <> k') -> nth_error l (i + k * R) = Some s -> nth_error (lupd l (i' + k' * R) s') (i + k * R) = Some s.
Proof.
  intros Hi Hi' N Hs. rewrite lupd_nth. destruct (Nat.eqb_spec (i + k * R) (i' + k' * R)) as [E|E]; [|exact Hs]. apply pos_inj in E; try assumption. lia.
Qed.
Lemma st_new tg l m i k s' : st tg l m -> i < R -> k < C -> nth_error (lupd l (i + k * R) s') (i + k * R) = Some s'.
Proof.
  intros HF Hi Hk. rewrite lupd_nth, Nat.eqb_refl. destruct (Nat.ltb_spec (i + k * R) (length l)) as [|N]; [reflexivity|]. exfalso. rewrite (fo_len _ _ _ _ _ HF), HL0 in N. assert (i + k * R < R * C) by (apply pos_lt; lia). lia.
Qed.
End St.

(** ** Diagonal blocks *)
Section Diag.
Context {K : fops} {G : ofops}.
Local Notation hmx := (hmatrix G).
Implicit Types (m : mem K) (h s x y z a : hmx) (l : list hmx) (D E F U V W X Y Z : nat -> nat -> K) (rc cc : cptr G).
Lemma hdiag_like h : hdiag h -> forall h', hlike h h' -> hdiag h'.
Proof.
  induction 1 as [rc f ds|rc l n ds H1 IH]; intros h' HL.
  - inversion HL; subst. constructor.
  - inversion HL as [| |? ? ? l' ? ? ? HF]; subst. constructor. intros j s' Hj Hs'. destruct (nth_ex l (j + j * n)) as (s & Hs).
    { assert (E : length l = length l') by (clear - HF; induction HF; cbn; congruence). rewrite E. apply nth_error_Some. congruence. }
    eapply (IH j s Hj Hs). exact (BlockP.Forall2_nth _ _ _ HF _ _ _ Hs Hs').
Qed.
Lemma hdiag_rc h : hdiag h -> hm_rc h = hm_cc h /\ hm_r h = None /\ hm_rsons h = hm_csons h.
Proof. intros HT. destruct HT; cbn; auto. Qed.
Lemma hrep_htri (lower aunit : bool) m a : hdiag a -> forall D, hrep m a D -> hstd a -> htri lower aunit m a D.
Proof.
  induction 1 as [rc f ds|rc l n ds H1 IH]; intros D HR HS.
  - inversion HR; subst. constructor; try assumption. intros i j Hi Hj _. auto.
  - pose proof HR as HRx. inversion_clear HRx as [| |? ? ? ? ? ? hs ws ? P1 P2 P3 P4 P5 P6 P7].
    destruct (std_parts m rc rc l n n ds hs ws D HS P1 P2 P3 P6 P7) as (_ & _ & HRl & _ & HPt).
    econstructor; [exact P3| | | |].
    + rewrite <- P4. apply nsum_ext'. intros i Hi. symmetry. exact (proj2 (HRl i Hi)).
    + intros i j s Hi Hj Hs. destruct (HPt i j s Hi Hj Hs) as (Y1 & Y2 & _). unfold hrows, hcols. rewrite Y1, Y2. auto.
    + intros j s Hj Hs. destruct (HPt j j s Hj Hj Hs) as (Y1 & Y2 & Y3). apply (IH j s Hj Hs); [exact Y3|]. eapply hstd_son; [exact HS|reflexivity|eapply nth_error_In; exact Hs].
    + intros i j s Hi Hj _ Hs. apply (HPt i j s Hi Hj Hs).
Qed.
End Diag.

(** ** The elimination *)
Section Alg.
Context {K : fops} (L : field_laws K).
Notation RL := (fl_ring K L).
Add Ring KringHfac4 : (rl_ring K (fl_ring K L)).
Notation lo := (tripart true true).
Notation up := (tripart false false).
Implicit Types (F : nat -> nat -> K).
(** The remaining matrix when the first [o] rows and columns are eliminated *)
Definition sc (n o : nat) F (i j : nat) : K := sum (n - o) (fun r => lo F i (o + r)%nat * up F (o + r)%nat j)%F.

Lemma sc_split n o w F i j : o + w <= n -> sc n o F i j = (sum w (fun q => lo F i (o + q)%nat * up F (o + q)%nat j) + sc n (o + w) F i j)%F.
Proof.
  intros Hw. unfold sc. replace (n - o) with (w + (n - (o + w))) by lia. rewrite (sum_app RL). f_equal. apply sum_ext. intros r _. rewrite Nat.add_assoc. reflexivity.
Qed.
Lemma lo_0 F i j : i < j -> lo F i j = f0.
Proof. intros Hij. unfold tripart. destruct (Nat.eqb_spec i j); [lia|]. destruct (Nat.ltb_spec j i); [lia|reflexivity]. Qed.
Lemma up_0 F i j : j < i -> up F i j = f0.
Proof. intros Hij. unfold tripart. destruct (Nat.eqb_spec i j); [lia|]. destruct (Nat.ltb_spec i j); [lia|reflexivity]. Qed.
Lemma lo_at F i j : j < i -> lo F i j = F i j.
Proof. intros Hij. unfold tripart. destruct (Nat.eqb_spec i j); [lia|]. destruct (Nat.ltb_spec j i); [reflexivity|lia]. Qed.
Lemma up_at F i j : i <= j -> up F i j = F i j.
Proof. intros Hij. unfold tripart. destruct (Nat.eqb_spec i j); [reflexivity|]. destruct (Nat.ltb_spec i j); [reflexivity|lia]. Qed.
Lemma sc_0 n o F i j : i < o \/ j < o -> sc n o F i j = f0.
Proof. intros Hij. apply (sum_0 RL). intros r _. destruct Hij; [rewrite lo_0 by lia|rewrite up_0 by lia]; ring. Qed.
Lemma lo_shift F o i j : lo (fun p q => F (o + p) (o + q)) i j = lo F (o + i) (o + j).
Proof. apply (tri_shift true true false). Qed.
Lemma up_shift F o i j : up (fun p q => F (o + p) (o + q)) i j = up F (o + i) (o + j).
Proof. apply (tri_shift false false false). Qed.

(** The diagonal block *)
Lemma sc_diag n o w F : o + w <= n -> lrinv w w (fun p q => F (o + p) (o + q)) (fun p q => sc n o F (o + p) (o + q)).
Proof.
  intros Hw i j Hi Hj. rewrite (sc_split n o w) by exact Hw. rewrite sc_0 by lia. destruct (Nat.leb_spec w i); [lia|]. cbn [andb]. f_equal.
  apply sum_ext. intros q _. rewrite lo_shift, up_shift. reflexivity.
Qed.
(** Blocks in the same row and in the same column *)
Lemma sc_row n o w F p c : o + w <= n -> p < w -> o + w <= c -> sc n o F (o + p) c = sum w (fun q => lo (fun p q => F (o + p) (o + q))%nat p q * F (o + q)%nat c)%F.
Proof.
  intros Hw Hp Hc. rewrite (sc_split n o w) by exact Hw. rewrite sc_0 by lia. transitivity (sum w (fun q => lo F (o + p)%nat (o + q)%nat * up F (o + q)%nat c)%F); [ring|].
  apply sum_ext. intros q Hq. rewrite lo_shift, up_at by lia. reflexivity.
Qed.
Lemma sc_col n o w F p c : o + w <= n -> p < w -> o + w <= c -> sc n o F c (o + p) = sum w (fun q => F c (o + q)%nat * up (fun p q => F (o + p) (o + q))%nat q p)%F.
Proof.
  intros Hw Hp Hc. rewrite (sc_split n o w) by exact Hw. rewrite sc_0 by lia. transitivity (sum w (fun q => lo F c (o + q)%nat * up F (o + q)%nat (o + p)%nat)%F); [ring|].
  apply sum_ext. intros q Hq. rewrite up_shift, lo_at by lia. reflexivity.
Qed.
Lemma sc_next n o w F i j : o + w <= n -> o + w <= i -> o + w <= j -> sc n (o + w) F i j = (sc n o F i j + - (1) * sum w (fun q => F i (o + q)%nat * F (o + q)%nat j))%F.
Proof.
  intros Hw Hi Hj. rewrite (sc_split n o w) by exact Hw. rewrite (sum_ext w (fun q => lo F i (o + q)%nat * up F (o + q)%nat j)%F (fun q => F i (o + q)%nat * F (o + q)%nat j)%F); [ring|].
  intros q Hq. rewrite lo_at, up_at by lia. reflexivity.
Qed.
End Alg.
