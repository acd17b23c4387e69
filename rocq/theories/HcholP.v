(** * Updates of the lower triangular part of an H-matrix *)
From Coq Require Import Arith Lia List Bool Permutation Ring NArith.
From Verif Require Import Fld Ord Prog Arr View Loop Line Spec FactorSpec FactorP4 Cluster Block BlockP Avector Amatrix AvectorP AmatrixP AmatrixP2 Rkmatrix RkSpec RkP Factor Chol CholSpec Qr QrSpec Lr LrP
  CbP CbmSpec CbmP CopSpec OrthoP SepP SepP2 Htrunc HtSpec HtP HtP2 HtP3 HtP4 Hmatrix HmSpec HmP HmP3 HmP4 HlibSpec Harith HaSpec HaP HaP2 HaP3 HaP4 HaddSpec HmvP Hadd MgP MgP2 MgP3 HaddP HaddP2 HaddP3 HaddP4 HaddP5 HaddP6 Hmul HmulP HmulP2 HmulP3 HmulP4 HmulP5 Hfac HfacSpec HfacP HfacP2 HfacP3 HfacP4 HfacP5 Hchol.
Import ListNotations.
Local Open Scope nat_scope.

(** The block containing an index *)
Fixpoint fidx (hs : nat -> nat) (n x : nat) : nat := match n with 0 => 0 | S k => if nsum k hs <=? x then k else fidx hs k x end.
Lemma fidx_in hs n : forall i p, i < n -> p < hs i -> fidx hs n (nsum i hs + p) = i.
Proof.
  induction n as [|n IH]; intros i p Hi Hp; [lia|]. cbn [fidx]. destruct (Nat.leb_spec (nsum n hs) (nsum i hs + p)) as [Hl|Hl].
  - destruct (Nat.eq_dec i n) as [->|N]; [reflexivity|]. pose proof (nsum_le hs i n ltac:(lia)). lia.
  - apply IH; [|exact Hp]. destruct (Nat.eq_dec i n) as [->|N]; lia.
Qed.
Lemma blk_of (g : nat -> nat) n x : x < nsum n g -> exists i, i < n /\ nsum i g <= x < nsum i g + g i.
Proof.
  induction n as [|n IH]; intros Hx; [cbn in Hx; lia|]. cbn [nsum] in Hx. destruct (Nat.lt_ge_cases x (nsum n g)) as [Hl|Hl].
  - destruct (IH Hl) as (i & Hi & Hr). exists i. split; [lia|exact Hr].
  - exists n. split; [lia|lia].
Qed.
(** A matrix given by its blocks *)
Definition asm {K : fops} (hs : nat -> nat) (n : nat) (tg : nat -> nat -> nat -> nat -> K) (x y : nat) : K :=
  tg (fidx hs n x) (fidx hs n y) (x - nsum (fidx hs n x) hs) (y - nsum (fidx hs n y) hs).
Lemma asm_at {K : fops} hs n (tg : nat -> nat -> nat -> nat -> K) i j p c : i < n -> j < n -> p < hs i -> c < hs j -> asm hs n tg (nsum i hs + p) (nsum j hs + c) = tg i j p c.
Proof. intros Hi Hj Hp Hc. unfold asm. rewrite !fidx_in by assumption. rewrite !Nat.add_comm with (m := p), !Nat.add_comm with (m := c), !Nat.add_sub. reflexivity. Qed.

Section Low.
Context {K : fops} {G : ofops}.
Local Notation hmx := (hmatrix G).
Implicit Types (m : mem K) (h s x y z a b : hmx) (l : list hmx) (D E F U V W X Y Z : nat -> nat -> K) (r : rkm) (rc cc : cptr G).

(** [E] and [W] have the same lower triangular part. *)
Definition lowerq (n : nat) E W : Prop := forall p q, q <= p -> p < n -> E p q = W p q.

Section Blocks.
Variables (R : nat) (rc0 : cptr G) (m0 : mem K) (l0 : list hmx).
Hypothesis HL0 : length l0 = R * R.
Hypothesis Hcl : forall i k s, i < R -> k < R -> nth_error l0 (i + k * R) = Some s -> hm_rc s = prt rc0 i /\ hm_cc s = prt rc0 k.
Hypothesis Hst0 : forall s, In s l0 -> hstd s /\ hpos s.
Local Notation hs := (fun i => csz (prt rc0 i)).
Local Notation off i := (nsum i hs).
Hypothesis R0 : 0 < R.
Hypothesis ER : off R = csz rc0.

(** The part of a block that belongs to the lower triangular part *)
Definition inlow (i j p c : nat) : Prop := j < i \/ i = j /\ c <= p.
Definition lowtg (tg tg' : nat -> nat -> nat -> nat -> K) : Prop := forall i j p c, i < R -> j < R -> p < hs i -> c < hs j -> inlow i j p c -> tg i j p c = tg' i j p c.

Lemma st_hpost ds tg l m : st R m0 l0 tg l m -> hpost m0 (HM rc0 rc0 None None (Some l0) R R ds) (asm hs R tg) (HM rc0 rc0 None None (Some l) R R ds) m.
Proof.
  intros HF. eapply (forest_end m0 rc0 rc0 l0 l R R ds hs hs (asm hs R tg)); [exact R0|exact R0|exact HL0|exact ER|exact ER| |].
  - intros i j s Hi Hj Hs. destruct (Hcl i j s Hi Hj Hs) as [E1 E2]. unfold hrows, hcols. rewrite E1, E2. auto.
  - eapply forest_extr; [exact HF|]. intros q s p c Hs Hp Hc. destruct (posinv R R q) as (i & k & Hi & Hk & ->); [rewrite <- HL0; apply nth_error_Some; congruence|]. rewrite (partof_at R _ _ _ i k p c Hi).
    destruct (Hcl i k s Hi Hk Hs) as [E1 E2]. unfold hrows, hcols in Hp, Hc. rewrite E1 in Hp. rewrite E2 in Hc.
    destruct (divp R i k Hi) as [-> ->]. apply asm_at; assumption.
Qed.
Lemma low_asm tg W : lowtg tg (fun i j p c => W (off i + p) (off j + c)) -> lowerq (csz rc0) (asm hs R tg) W.
Proof.
  intros HT x y Hxy Hx. rewrite <- ER in Hx. destruct (blk_of hs R x Hx) as (i & Hi & Ei). destruct (blk_of hs R y ltac:(lia)) as (j & Hj & Ej). cbv beta in Ei, Ej.
  replace x with (off i + (x - off i)) by lia. replace y with (off j + (y - off j)) by lia. rewrite asm_at by (cbv beta; lia). apply HT; try assumption; cbv beta; try lia.
  unfold inlow. destruct (Nat.lt_trichotomy i j) as [Hl|[->|Hl]]; [|right; lia|left; lia]. exfalso. pose proof (nsum_le hs i j Hl). cbv beta in *. lia.
Qed.
(** The blocks in the beginning *)
Lemma st_start rcc ds D m : m = m0 -> (forall i j s, i < R -> j < R -> nth_error l0 (i + j * R) = Some s -> hrep m s (fun p q => D (off i + p) (off j + q))) ->
  hmut m (HM rcc rcc None None (Some l0) R R ds) -> st R m0 l0 (fun i j p c => D (off i + p) (off j + c)) l0 m.
Proof.
  intros -> HR HU. eapply forest_extr; [eapply (forest_sons m0 rcc rcc l0 R R ds hs hs D HL0); [exact HR|exact HU]|].
  intros q s p c Hs _ _. destruct (posinv R R q) as (i & k & Hi & Hk & ->); [rewrite <- HL0; apply nth_error_Some; congruence|]. rewrite (partof_at R _ _ D i k p c Hi). destruct (divp R i k Hi) as [-> ->]. reflexivity.
Qed.

(** ** The loops that add parts of a matrix *)
Lemma wp_addlowsons {A} (part : nat -> nat -> nat -> nat -> prog K A) (done : A -> prog K unit) (lg : list (hmx -> A -> prog K hmx)) (go : hmx -> A -> prog K hmx) D W (Q : list hmx -> mem K -> Prop) :
  st R m0 l0 (fun i j p c => D (off i + p) (off j + c)) l0 m0 -> length lg = R * R ->
  (forall i j s0 s g m1 (F1 : addr -> Prop), j <= i -> i < R -> nth_error l0 (i + j * R) = Some s0 -> hlike s0 s -> nth_error lg (i + j * R) = Some g -> moves m0 (fpl l0) F1 m1 -> (forall c, hfp s c -> F1 c) ->
     hrep m1 s (fun p c => D (off i + p) (off j + c)) -> hmut m1 s -> hstd s -> hpos s -> hm_rc s = prt rc0 i -> hm_cc s = prt rc0 j -> off i + hrows s <= csz rc0 -> off j + hcols s <= csz rc0 ->
     wp TT TT (addpart part done (if i =? j then g else go) (off i) (off j) s) m1 (fun s' m2 => exists E, hpost m1 s E s' m2 /\ forall p c, p < hs i -> c < hs j -> inlow i j p c -> E p c = W (off i + p) (off j + c))) ->
  (forall tg l' m', st R m0 l0 tg l' m' -> lowtg tg (fun i j p c => W (off i + p) (off j + c)) -> Q l' m') ->
  wp TT TT (addlowsons part done (Some lg) go rc0 rc0 R l0) m0 Q.
Proof.
  intros HS0 HLg HB HQ. unfold addlowsons. apply wp_bind.
  set (INV := fun i j l m => exists tg, st R m0 l0 tg l m /\
    (forall i' j' p c, i' < R -> j' < R -> p < hs i' -> c < hs j' -> inlow i' j' p c -> j' < j \/ j' = j /\ i' < i -> tg i' j' p c = W (off i' + p) (off j' + c)) /\
    (forall i' j' p c, i' < R -> j' < R -> p < hs i' -> c < hs j' -> ~ (j' < j \/ j' = j /\ i' < i) -> tg i' j' p c = D (off i' + p) (off j' + c))).
  assert (Hget : forall tg l m i j, st R m0 l0 tg l m -> i < R -> j < R -> exists s, nth_error l (i + j * R) = Some s /\ hrows s = hs i /\ hcols s = hs j).
  { intros tg l m i j HS Hi Hj. destruct (st_get R R rc0 rc0 m0 l0 HL0 Hcl Hst0 _ l m i j HS Hi Hj) as (s & Ns & A1 & A2 & _). exists s. unfold hrows, hcols. rewrite A1, A2. auto. }
  apply (wp_forS (fun j (lc : list hmx * nat) m => snd lc = off j /\ INV 0 j (fst lc) m)).
  - split; [reflexivity|]. exists (fun i j p c => D (off i + p) (off j + c)). split; [exact HS0|]. split; [|reflexivity]. intros; lia.
  - intros j [l1 coff] m1 [_ Hj] [Hc HI]. cbn [fst snd Nat.add] in *. subst coff. cbv zeta. apply wp_bind.
    apply (wp_forS (fun i (roff : nat) m => roff = off i /\ m = m1)); [auto| |].
    { intros i roff m [_ Hi] [-> ->]. cbn [Nat.add] in Hi. destruct HI as (tg & HS & _). destruct (Hget tg l1 m1 i j HS ltac:(lia) Hj) as (s & Ns & E1 & E2).
      apply wp_bind. rewrite (sget_some _ _ _ Ns). cbn [wp]. rewrite E1. auto. }
    intros roff m [-> ->]. cbn [Nat.add]. apply wp_bind.
    apply (wp_forS (fun i (lr : list hmx * nat) m => snd lr = off i /\ INV i j (fst lr) m)).
    + split; [reflexivity|]. destruct HI as (tg & HS & H1 & H2). cbn [fst]. destruct (Nat.eq_dec j 0) as [->|Nj]; [exists tg; auto|].
      exists tg. split; [exact HS|]. split; [|intros i' j' p c ? ? ? ? Hn; apply H2; try assumption; lia].
      intros i' j' p c Hi' Hj' Hp Hc Hin [Hl|[-> Hl]]; [apply H1; auto|]. exfalso. destruct Hin; lia.
    + intros i [l2 roff] m2 [Hji Hi] [Hr HI2]. cbn [fst snd] in *. subst roff. assert (Hi' : i < R) by lia. destruct HI2 as (tg & HS & H1 & H2).
      destruct (st_get R R rc0 rc0 m0 l0 HL0 Hcl Hst0 _ l2 m2 i j HS Hi' Hj) as (s & Ns & A1 & A2 & A3 & A4 & A5 & A6 & A7 & s0 & N0 & A8).
      destruct (nth_ex lg (i + j * R)) as (g & Ng); [rewrite HLg; apply pos_lt; lia|].
      apply wp_bind. rewrite (sget_some _ _ _ Ns). cbn [wp]. apply wp_bind. assert (Hg : wp TT TT (if i =? j then sget (Some lg) (i + j * R) else Ret go) m2 (fun f m => f = (if i =? j then g else go) /\ m = m2)).
      { destruct (i =? j); [rewrite (sget_some _ _ _ Ng)|]; cbn [wp]; auto. }
      eapply wp_conseq; [exact Hg|]. cbv beta. intros f m [-> ->]. clear Hg. apply wp_bind.
      pose proof (nsum_in hs i R Hi'). pose proof (nsum_in hs j R Hj). cbv beta in *. eapply wp_conseq.
      { eapply (HB i j s0 s g m2 (fpl l2)); try eassumption.
        - apply HS.
        - intros a Ha. exists (i + j * R), s. auto.
        - eapply hrep_ext; [exact A3|]. unfold hrows, hcols. rewrite A1, A2. intros p c Hp Hc. symmetry. apply H2; auto. lia.
        - unfold hrows. rewrite A1. lia.
        - unfold hcols. rewrite A2. lia. }
      cbv beta. intros s' m3 (E & HP & HE). cbn [wp fst snd]. pose proof HP as (_ & _ & HLk & _). destruct (hlike_size _ _ HLk) as [Es _]. split; [rewrite Es; unfold hrows; rewrite A1; reflexivity|].
      exists (fun i' j' p c => if (i' =? i) && (j' =? j) then E p c else tg i' j' p c). split; [eapply (st_put R R rc0 rc0 m0 l0 HL0 Hcl); [exact HS|exact Hi'|exact Hj|exact Ns|exact HP|reflexivity]|]. split.
      * intros i' j' p c Hi1 Hj1 Hp Hc Hin Hd. destruct (Nat.eqb_spec i' i) as [->|Ni]; [destruct (Nat.eqb_spec j' j) as [->|Nj]|]; cbn [andb]; [apply HE; assumption| |]; apply H1; try assumption; lia.
      * intros i' j' p c Hi1 Hj1 Hp Hc Hn. destruct (Nat.eqb_spec i' i) as [->|Ni]; [destruct (Nat.eqb_spec j' j) as [->|Nj]|]; cbn [andb]; [lia| |]; apply H2; try assumption; lia.
    + intros [l2 roff] m2 [Hr HI2]. cbn [fst snd] in *. replace (j + (R - j)) with R in * by lia. subst roff. apply wp_bind, wp_assert; [apply Nat.eqb_eq, ER|].
      destruct HI2 as (tg & HS & H1 & H2). destruct (Hget tg l2 m2 0 j HS R0 Hj) as (s & Ns & _ & E2). cbn [Nat.add] in Ns. apply wp_bind. rewrite (sget_some _ _ _ Ns). cbn [wp fst snd]. rewrite E2. split; [reflexivity|].
      exists tg. split; [exact HS|]. split; intros i' j' p c Hi1 Hj1 Hp Hc; [intros Hin Hd; apply H1; try assumption; lia|intros Hn; apply H2; try assumption; lia].
  - intros [l1 coff] m1 [Hc (tg & HS & H1 & _)]. cbn [fst snd Nat.add] in *. subst coff. apply wp_bind, wp_assert; [apply Nat.eqb_eq, ER|]. cbn [wp]. apply (HQ tg); [exact HS|]. intros i j p c Hi Hj Hp Hc Hin. apply H1; auto.
Qed.
End Blocks.
End Low.
