(** * Triangular H-matrices applied to H-matrices: the loops *)
From Coq Require Import Arith Lia List Bool Permutation Ring.
From Verif Require Import Fld Ord Prog Arr View Loop Line Spec FactorSpec Cluster Block BlockP Avector Amatrix AvectorP AmatrixP AmatrixP2 Rkmatrix RkSpec RkP Factor Chol CholSpec Qr QrSpec
  CbP CbmSpec CbmP CopSpec OrthoP SepP SepP2 Htrunc HtSpec HtP HtP2 HtP3 HtP4 Hmatrix HmSpec HmP HmP3 HmP4 HlibSpec Harith HaSpec HaP HaP2 HaP3 HaddSpec HmvP Hadd MgP MgP2 MgP3 HaddP HaddP2 HaddP3 HaddP4 HaddP5 HaddP6 Hmul HmulP HmulP2 HmulP3 HmulP4 Hfac.
Import ListNotations.

Section Pos.
(** Positions of submatrices *)
Lemma tidx_lt (t : bool) R C i k : i < R -> k < C -> tidx t R C i k < R * C.
Proof. intros Hi Hk. unfold tidx. destruct t; nia. Qed.
Lemma tidx_inv (t : bool) R C n : n < R * C -> exists i k, i < R /\ k < C /\ n = tidx t R C i k.
Proof.
  intros Hn. unfold tidx. destruct t.
  - assert (C <> 0) by (intros ->; lia). exists (n / C), (n mod C). split; [apply Nat.div_lt_upper_bound; lia|]. split; [apply Nat.mod_upper_bound; lia|]. pose proof (Nat.div_mod n C ltac:(lia)). lia.
  - assert (R <> 0) by (intros ->; lia). exists (n mod R), (n / R). split; [apply Nat.mod_upper_bound; lia|]. split; [apply Nat.div_lt_upper_bound; lia|]. pose proof (Nat.div_mod n R ltac:(lia)). lia.
Qed.
Lemma pos_inj n a b a' b' : a < n -> a' < n -> a + b * n = a' + b' * n -> a = a' /\ b = b'.
Proof.
  intros H1 H2 E. assert (E1 : (a + b * n) mod n = (a' + b' * n) mod n) by congruence. rewrite !Nat.mod_add, !Nat.mod_small in E1 by lia. split; [exact E1|]. subst a'.
  assert (b * n = b' * n) by lia. nia.
Qed.
Lemma tidx_inj (t : bool) R C i k i' k' : i < R -> k < C -> i' < R -> k' < C -> tidx t R C i k = tidx t R C i' k' -> i = i' /\ k = k'.
Proof.
  intros Hi Hk Hi' Hk' E. unfold tidx in E. destruct t; apply pos_inj in E; try assumption; tauto.
Qed.
Lemma nsum_le (g : nat -> nat) i i' : i < i' -> nsum i g + g i <= nsum i' g.
Proof. intros H. exact (nsum_in g i i' H). Qed.
Lemma inb_iff o k p : inb o k p = true <-> o <= p < o + k.
Proof. unfold inb. rewrite andb_true_iff, Nat.leb_le, Nat.ltb_lt. tauto. Qed.
Lemma inb_own (g : nat -> nat) i p : p < g i -> inb (nsum i g) (g i) (nsum i g + p) = true.
Proof. intros H. apply inb_iff. lia. Qed.
Lemma inb_other (g : nat -> nat) i i' p : i <> i' -> p < g i' -> inb (nsum i g) (g i) (nsum i' g + p) = false.
Proof.
  intros N H. apply Bool.not_true_iff_false. rewrite inb_iff. intros B. destruct (Nat.lt_trichotomy i i') as [E|[E|E]]; [|contradiction|]; [pose proof (nsum_le g i i' E)|pose proof (nsum_le g i' i E)]; lia.
Qed.
End Pos.

Section Loops.
Context {K : fops} {G : ofops} (L : field_laws K).
Notation RL := (fl_ring K L).
Add Ring KringHfac1 : (rl_ring K (fl_ring K L)).
Local Notation hmx := (hmatrix G).
Implicit Types (m : mem K) (h s x y z : hmx) (l : list hmx) (D E X Y Z W U : nat -> nat -> K).

Lemma hpos_like h h' : hlike h h' -> hpos h -> hpos h'.
Proof. intros HL HP s' Hs'. destruct (hlike_nodes h h' s' HL Hs') as (s & Hs & HLs). destruct (hlike_size _ _ HLs) as [-> ->]. apply HP, Hs. Qed.
Lemma forest_extr m0 l0 l (V V' : nat -> nat -> nat -> K) m : forest m0 l0 l V m -> (forall k s a b, nth_error l0 k = Some s -> a < hrows s -> b < hcols s -> V' k a b = V k a b) -> forest m0 l0 l V' m.
Proof.
  intros [A1 A2 A3 A4] HV. constructor; try assumption. intros k s s' H1 H2. destruct (A2 k s s' H1 H2) as (B1 & B2 & B3). split; [exact B1|]. split; [|exact B3].
  eapply hrep_ext; [exact B2|]. destruct (hlike_size _ _ B1) as [-> ->]. intros i j Hi Hj. eapply HV; eassumption.
Qed.

Lemma tr_rng (t : bool) W W' (a b h w : nat) : (if t then a < w /\ b < h else a < h /\ b < w) -> (forall p c, p < h -> c < w -> W p c = W' p c) -> tr t W a b = tr t W' a b.
Proof. intros HT HE. destruct t; cbn [tr]; rewrite HE by apply HT; reflexivity. Qed.

Section Forest.
Variables (xt : bool) (R C : nat) (hs ws : nat -> nat) (m0 : mem K) (l0 : list hmx).
Hypothesis HL0 : length l0 = R * C.
Hypothesis Hsz : forall i k s, i < R -> k < C -> nth_error l0 (tidx xt R C i k) = Some s -> csz (trc xt s) = hs i /\ csz (tcc xt s) = ws k.

(** The submatrices are the blocks of [W] (or its adjoint). *)
Definition tf l W m : Prop := forest m0 l0 l (partof (if xt then C else R) (if xt then ws else hs) (if xt then hs else ws) (tr xt W)) m.
Definition at2 W (i k : nat) : nat -> nat -> K := fun p c => W (nsum i hs + p) (nsum k ws + c).
Definition put W (i k : nat) E : nat -> nat -> K := fun p c =>
  if inb (nsum i hs) (hs i) p && inb (nsum k ws) (ws k) c then E (p - nsum i hs)%nat (c - nsum k ws)%nat else W p c.

Lemma part_tidx W i k a b : i < R -> k < C -> partof (if xt then C else R) (if xt then ws else hs) (if xt then hs else ws) (tr xt W) (tidx xt R C i k) a b = tr xt (at2 W i k) a b.
Proof. intros Hi Hk. unfold tidx. destruct xt; rewrite partof_at by assumption; reflexivity. Qed.

Lemma tf_get l W m i k : tf l W m -> i < R -> k < C -> exists s s0, nth_error l (tidx xt R C i k) = Some s /\ nth_error l0 (tidx xt R C i k) = Some s0 /\ hlike s0 s /\ hrep m s (tr xt (at2 W i k)) /\ hmut m s.
Proof.
  intros HF Hi Hk. destruct (nth_ex l (tidx xt R C i k)) as (s & Hs). { rewrite (fo_len _ _ _ _ _ HF), HL0. apply tidx_lt; assumption. }
  destruct (forest_get _ _ _ _ _ _ _ HF Hs) as (s0 & H0 & H1 & H2 & H3). exists s, s0. split; [exact Hs|]. split; [exact H0|]. split; [exact H1|]. split; [|exact H3].
  eapply hrep_ext; [exact H2|]. intros a b _ _. symmetry. apply part_tidx; assumption.
Qed.
Lemma tsize i k s a b : i < R -> k < C -> nth_error l0 (tidx xt R C i k) = Some s -> a < hrows s -> b < hcols s -> if xt then a < ws k /\ b < hs i else a < hs i /\ b < ws k.
Proof. intros Hi Hk Hs Ha Hb. destruct (Hsz i k s Hi Hk Hs) as [E1 E2]. destruct xt; unfold trc, tcc, hrows, hcols in *; lia. Qed.
Lemma tr_range W W' i k s a b : i < R -> k < C -> nth_error l0 (tidx xt R C i k) = Some s -> a < hrows s -> b < hcols s -> (forall p c, p < hs i -> c < ws k -> W p c = W' p c) -> tr xt W a b = tr xt W' a b.
Proof.
  intros Hi Hk Hs Ha Hb HE. apply (tr_rng xt W W' a b (hs i) (ws k)); [|exact HE]. eapply tsize; eassumption.
Qed.
Lemma tf_ext l W W' m : tf l W m -> (forall i k p c, i < R -> k < C -> p < hs i -> c < ws k -> at2 W' i k p c = at2 W i k p c) -> tf l W' m.
Proof.
  intros HF HE. eapply forest_extr; [exact HF|]. intros n s a b Hs Ha Hb. assert (Hn : n < R * C) by (rewrite <- HL0; apply nth_error_Some; congruence).
  destruct (tidx_inv xt R C n Hn) as (i & k & Hi & Hk & ->). rewrite !part_tidx by assumption. eapply tr_range; try eassumption. intros p c Hp Hc. apply HE; assumption.
Qed.
Lemma at2_put W i k E i' k' p c : p < hs i' -> c < ws k' -> at2 (put W i k E) i' k' p c = if (i' =? i) && (k' =? k) then E p c else at2 W i' k' p c.
Proof.
  intros Hp Hc. unfold at2, put. destruct (Nat.eqb_spec i' i) as [->|N1].
  - rewrite inb_own by exact Hp. cbn [andb]. destruct (Nat.eqb_spec k' k) as [->|N2].
    + rewrite inb_own by exact Hc. f_equal; lia.
    + rewrite inb_other by auto. reflexivity.
  - rewrite inb_other by auto. reflexivity.
Qed.
Lemma tf_put l W m i k s E s' m' : tf l W m -> i < R -> k < C -> nth_error l (tidx xt R C i k) = Some s -> hpost m s (tr xt E) s' m' -> tf (lupd l (tidx xt R C i k) s') (put W i k E) m'.
Proof.
  intros HF Hi Hk Hs HP. pose proof (forest_step _ _ _ _ _ _ _ _ _ _ HF Hs HP) as HF'. eapply forest_extr; [exact HF'|].
  intros n s1 a b Hs1 Ha Hb. assert (Hn : n < R * C) by (rewrite <- HL0; apply nth_error_Some; congruence).
  destruct (tidx_inv xt R C n Hn) as (i' & k' & Hi' & Hk' & ->). rewrite part_tidx by assumption.
  transitivity (tr xt (if (i' =? i) && (k' =? k) then E else at2 W i' k') a b).
  - eapply tr_range; try eassumption. intros p c Hp Hc. rewrite at2_put by assumption. destruct ((i' =? i) && (k' =? k)); reflexivity.
  - destruct (Nat.eqb_spec (tidx xt R C i' k') (tidx xt R C i k)) as [Et|Et].
    + destruct (tidx_inj xt R C i' k' i k Hi' Hk' Hi Hk Et) as [-> ->]. rewrite !Nat.eqb_refl. reflexivity.
    + assert (Ef : (i' =? i) && (k' =? k) = false). { apply Bool.not_true_iff_false. rewrite andb_true_iff, !Nat.eqb_eq. intros [-> ->]. apply Et. reflexivity. }
      rewrite Ef, part_tidx by assumption. reflexivity.
Qed.
Lemma tf_disj l W m i k i' k' s s' : tf l W m -> i < R -> k < C -> i' < R -> k' < C -> nth_error l (tidx xt R C i k) = Some s -> nth_error l (tidx xt R C i' k') = Some s' -> (i <> i' \/ k <> k') -> disj (hfp s) (hfp s').
Proof.
  intros HF Hi Hk Hi' Hk' Hs Hs' N. eapply (fo_dis _ _ _ _ _ HF); [exact Hs|exact Hs'|]. intros E. apply tidx_inj in E; try assumption. lia.
Qed.

(** ** One column *)
Variables (fwd : bool) (U : nat -> nat -> K).
Local Notation sg t := (ord fwd R t).
Lemma sg_lt t : t < R -> sg t < R.
Proof. unfold ord. destruct fwd; lia. Qed.
Lemma sg_inj t u : t < R -> u < R -> sg t = sg u -> t = u.
Proof. unfold ord. destruct fwd; lia. Qed.
(** Rows of the blocks [v] with [v < t], and with [t < v < u] *)
Definition donep (t p : nat) : bool := if fwd then p <? nsum t hs else nsum (R - t) hs <=? p.
Definition afterp (t u p : nat) : bool := donep u p && negb (donep (S t) p).
Lemma done_0 p : p < nsum R hs -> donep 0 p = false.
Proof. intros Hp. unfold donep. destruct fwd; [reflexivity|]. rewrite Nat.sub_0_r. apply Nat.leb_gt, Hp. Qed.
Lemma done_R p : p < nsum R hs -> donep R p = true.
Proof. intros Hp. unfold donep. destruct fwd; [apply Nat.ltb_lt, Hp|]. rewrite Nat.sub_diag. apply Nat.leb_le. cbn. lia. Qed.
Lemma done_S t p : t < R -> p < nsum R hs -> donep (S t) p = donep t p || inb (nsum (sg t) hs) (hs (sg t)) p.
Proof.
  intros Ht Hp. unfold donep, ord, inb. apply Bool.eq_iff_eq_true. destruct fwd.
  - cbn [nsum]. rewrite orb_true_iff, andb_true_iff, !Nat.ltb_lt, Nat.leb_le. lia.
  - replace (R - t) with (S (R - 1 - t)) by lia. replace (R - S t) with (R - 1 - t) by lia. cbn [nsum]. rewrite orb_true_iff, andb_true_iff, !Nat.leb_le, Nat.ltb_lt. lia.
Qed.
Lemma done_not t p : t < R -> p < nsum R hs -> donep t p && inb (nsum (sg t) hs) (hs (sg t)) p = false.
Proof.
  intros Ht Hp. unfold donep, ord, inb. apply Bool.not_true_iff_false. destruct fwd.
  - rewrite !andb_true_iff, !Nat.ltb_lt, Nat.leb_le. lia.
  - replace (R - t) with (S (R - 1 - t)) by lia. cbn [nsum]. rewrite !andb_true_iff, !Nat.leb_le, Nat.ltb_lt. lia.
Qed.
Lemma done_mono t u p : t <= u <= R -> donep t p = true -> donep u p = true.
Proof.
  intros Hu. unfold donep. destruct fwd.
  - rewrite !Nat.ltb_lt. intros H. destruct (Nat.eq_dec t u) as [->|N]; [exact H|]. pose proof (nsum_le hs t u). lia.
  - rewrite !Nat.leb_le. intros H. destruct (Nat.eq_dec t u) as [->|N]; [exact H|]. pose proof (nsum_le hs (R - u) (R - t)). lia.
Qed.
Lemma done_order t p q : t < R -> p < nsum R hs -> donep t p = true -> inb (nsum (sg t) hs) (hs (sg t)) q = true -> if fwd then p < q else q < p.
Proof.
  intros Ht Hp HD HB. rewrite inb_iff in HB. unfold donep, ord in *. destruct fwd; [apply Nat.ltb_lt in HD; lia|]. apply Nat.leb_le in HD.
  replace (R - t) with (S (R - 1 - t)) in HD by lia. cbn [nsum] in HD. lia.
Qed.
Lemma after_order t p q : t < R -> p < nsum R hs -> donep (S t) p = false -> inb (nsum (sg t) hs) (hs (sg t)) q = true -> if fwd then q < p else p < q.
Proof.
  intros Ht Hp HD HB. rewrite inb_iff in HB. unfold donep, ord in *. destruct fwd; [apply Nat.ltb_ge in HD; cbn [nsum] in HD; lia|]. apply Nat.leb_gt in HD.
  replace (R - S t) with (R - 1 - t) in HD by lia. lia.
Qed.

Local Notation con := (contrib hs U).
(** The value after all blocks after block [t] (and before block [u]) have been changed *)
Definition updW (alpha : K) (k t u : nat) W : nat -> nat -> K := fun p c =>
  if afterp t u p && inb (nsum k ws) (ws k) c then (W p c + alpha * con (sg t) W p c)%F else W p c.

Lemma con_ext i W W' p c : (forall q, q < hs i -> W' (nsum i hs + q)%nat c = W (nsum i hs + q)%nat c) -> con i W' p c = con i W p c.
Proof. intros HE. unfold contrib. apply sum_ext. intros q Hq. rewrite HE by exact Hq. reflexivity. Qed.
Lemma row_lt i p : i < R -> p < hs i -> nsum i hs + p < nsum R hs.
Proof. intros Hi Hp. pose proof (nsum_in hs i R Hi). lia. Qed.

Section Upd.
Context (O : qops K) (svd : mat -> vec -> mat -> mat -> prog K unit) (rank : vec -> prog K nat).
Variables (atrans : bool) (la : list hmx) (alpha : K).
(** The product with the block of [a] in row [j] and column [i] *)
Hypothesis Hupd : forall t u, t < u < R -> exists a, nth_error la (blk atrans R (sg u) (sg t)) = Some a /\
  forall k si sj ui uj m1 F1 X1 Z1, k < C -> nth_error l0 (tidx xt R C (sg t) k) = Some si -> nth_error l0 (tidx xt R C (sg u) k) = Some sj -> hlike si ui -> hlike sj uj ->
    moves m0 (fpl l0) F1 m1 -> (forall a, hfp ui a \/ hfp uj a -> F1 a) -> disj (hfp ui) (hfp uj) ->
    hrep m1 ui (tr xt X1) -> hmut m1 ui -> hrep m1 uj (tr xt Z1) -> hmut m1 uj ->
    wp TT TT (updson O svd rank alpha atrans xt a ui uj) m1 (hpost m1 uj (tr xt (fun p c => Z1 p c + alpha * sum (hs (sg t)) (fun q => U (nsum (sg u) hs + p)%nat (nsum (sg t) hs + q)%nat * X1 q c))%F)).

Lemma wp_updcol k t l W m (Q : list hmx -> mem K -> Prop) : k < C -> t < R -> tf l W m ->
  (forall l' m', tf l' (updW alpha k t R W) m' -> Q l' m') ->
  wp TT TT (updcol O svd rank alpha fwd atrans xt (Some la) R R C k t l) m Q.
Proof.
  intros Hk Ht HF HQ. unfold updcol. apply (wp_forS (fun u l' m' => tf l' (updW alpha k t u W) m')).
  - eapply tf_ext; [exact HF|]. intros i k' p c _ _ _ _. unfold at2, updW, afterp. replace (t + 1) with (S t) by lia. rewrite andb_negb_r. reflexivity.
  - intros u l1 m1 Hu HF1. assert (Hu' : t < u < R) by lia. clear Hu. destruct (Hupd t u Hu') as (a & Ea & Hgo).
    pose proof (sg_lt t Ht) as St. pose proof (sg_lt u (proj2 Hu')) as Su. assert (Nst : sg t <> sg u) by (intros E; apply sg_inj in E; lia).
    destruct (tf_get l1 _ m1 (sg t) k HF1 St Hk) as (ui & si & Ni & Ni0 & Li & Ri & Ui). destruct (tf_get l1 _ m1 (sg u) k HF1 Su Hk) as (uj & sj & Nj & Nj0 & Lj & Rj & Uj).
    apply wp_bind. rewrite (sget_some _ _ _ Ea). cbn [wp]. apply wp_bind. rewrite (sget_some _ _ _ Ni). cbn [wp]. apply wp_bind. rewrite (sget_some _ _ _ Nj). cbn [wp]. apply wp_bind.
    eapply wp_conseq; [eapply (Hgo k si sj ui uj m1 (fpl l1)); try eassumption|].
    + apply HF1.
    + intros b [Hb|Hb]; [exists (tidx xt R C (sg t) k), ui; auto|exists (tidx xt R C (sg u) k), uj; auto].
    + eapply (tf_disj l1 _ m1 (sg t) k (sg u) k); try eassumption. left. exact Nst.
    + cbv beta. intros s' m2 HP. cbn [wp]. pose proof (tf_put l1 _ m1 (sg u) k uj _ s' m2 HF1 Su Hk Nj HP) as HF2. eapply tf_ext; [exact HF2|].
      intros i k' p c Hi Hk' Hp Hc. rewrite at2_put by assumption. unfold at2.
      assert (Hpos : nsum i hs + p < nsum R hs) by (apply row_lt; assumption).
      assert (HA : afterp t (S u) (nsum i hs + p) = afterp t u (nsum i hs + p) || (i =? sg u)).
      { unfold afterp. rewrite (done_S u) by (assumption || lia). destruct (Nat.eqb_spec i (sg u)) as [->|Ni'].
        - rewrite inb_own by exact Hp. rewrite !orb_true_r. cbn [andb]. apply negb_true_iff. apply Bool.not_true_iff_false. intros HD. apply (done_mono (S t) u) in HD; [|lia].
          pose proof (done_not u (nsum (sg u) hs + p)) as DN. rewrite HD, inb_own in DN by exact Hp. specialize (DN ltac:(lia) Hpos). discriminate.
        - rewrite inb_other by auto. rewrite !orb_false_r. reflexivity. }
      assert (HU0 : forall q c', q < hs (sg t) -> updW alpha k t u W (nsum (sg t) hs + q) c' = W (nsum (sg t) hs + q) c').
      { intros q c' Hq. unfold updW, afterp. rewrite (done_S t) by (try apply row_lt; assumption). rewrite inb_own by exact Hq. rewrite orb_true_r. cbn [negb]. rewrite andb_false_r. reflexivity. }
      unfold updW at 1. rewrite HA. destruct (Nat.eqb_spec i (sg u)) as [->|Ni']; cbn [andb].
      * rewrite orb_true_r. cbn [andb]. destruct (Nat.eqb_spec k' k) as [->|Nk].
        -- rewrite inb_own by exact Hc. f_equal.
           ++ unfold updW. assert (HD : afterp t u (nsum (sg u) hs + p) = false).
              { unfold afterp. pose proof (done_not u (nsum (sg u) hs + p) ltac:(lia) Hpos) as DN. rewrite inb_own in DN by exact Hp. rewrite andb_true_r in DN. rewrite DN. reflexivity. }
              rewrite HD. reflexivity.
           ++ f_equal. unfold contrib. apply sum_ext. intros q Hq. unfold at2. rewrite HU0 by exact Hq. reflexivity.
        -- rewrite inb_other by auto. unfold updW. rewrite inb_other by auto. rewrite andb_false_r. reflexivity.
      * rewrite orb_false_r. reflexivity.
  - intros l1 m1 HF1. apply HQ. replace (t + 1 + (R - (t + 1))) with R in HF1 by lia. exact HF1.
Qed.
End Upd.

(** The diagonal block [i] of the matrix [U] is applied or solved. *)
Definition bpost (solve : bool) (i k : nat) X E : Prop := forall p c, p < hs i -> c < ws k ->
  if solve then sum (hs i) (fun q => U (nsum i hs + p)%nat (nsum i hs + q)%nat * E q c)%F = X p c else E p c = sum (hs i) (fun q => U (nsum i hs + p)%nat (nsum i hs + q)%nat * X q c)%F.

Section Diag.
Variables (solve : bool) (la : list hmx) (rec : option (list (hmx -> hmx -> prog K hmx))).
Hypothesis Hgo : forall i k, i < R -> k < C -> exists a go, nth_error la (i + i * R) = Some a /\ sget (K := K) rec (tidx xt R C i k) = Ret go /\
  forall si ui m1 F1 X1 (Q : hmx -> mem K -> Prop), nth_error l0 (tidx xt R C i k) = Some si -> hlike si ui -> moves m0 (fpl l0) F1 m1 -> (forall a, hfp ui a -> F1 a) ->
    hrep m1 ui (tr xt X1) -> hmut m1 ui -> (forall E s' m', bpost solve i k X1 E -> hpost m1 ui (tr xt E) s' m' -> Q s' m') -> wp TT TT (go a ui) m1 Q.

Lemma wp_diagcol k t l W m (Q : list hmx -> mem K -> Prop) : k < C -> t < R -> tf l W m ->
  (forall E l' m', bpost solve (sg t) k (at2 W (sg t) k) E -> tf l' (put W (sg t) k E) m' -> Q l' m') ->
  wp TT TT (diagcol fwd xt rec (Some la) R R C k t l) m Q.
Proof.
  intros Hk Ht HF HQ. unfold diagcol. pose proof (sg_lt t Ht) as St. destruct (Hgo (sg t) k St Hk) as (a & go & Na & Ng & Hg).
  destruct (tf_get l _ m (sg t) k HF St Hk) as (ui & si & Ni & Ni0 & Li & Ri & Ui).
  apply wp_bind. rewrite (sget_some _ _ _ Na). cbn [wp]. apply wp_bind. rewrite (sget_some _ _ _ Ni). cbn [wp]. apply wp_bind. rewrite Ng. cbn [wp]. apply wp_bind.
  eapply (Hg si ui m (fpl l)); try eassumption; [apply HF|intros b Hb; exists (tidx xt R C (sg t) k), ui; auto|].
  intros E s' m' HB HP. cbn [wp]. eapply HQ; [exact HB|]. eapply tf_put; eassumption.
Qed.
End Diag.

(** ** All columns *)
Local Notation N := (nsum R hs).
Hypothesis HU0 : forall p q, (if fwd then p < q else q < p) -> U p q = f0.

Lemma msk_con i F p c : i < R -> msk N (inb (nsum i hs) (hs i)) (fun q => U p q * F q c)%F = con i F p c.
Proof. intros Hi. pose proof (nsum_in hs i R Hi). unfold contrib. apply (msk_box RL N _ (nsum i hs) (hs i) (fun q => U p q * F q c)%F); [lia|reflexivity]. Qed.
Lemma put_in W i k E p c : inb (nsum k ws) (ws k) c = true -> inb (nsum i hs) (hs i) p = true -> put W i k E p c = E (p - nsum i hs)%nat (c - nsum k ws)%nat.
Proof. intros Hc Hp. unfold put. rewrite Hp, Hc. reflexivity. Qed.
Lemma put_row W i k E p c : inb (nsum i hs) (hs i) p = false -> put W i k E p c = W p c.
Proof. intros Hp. unfold put. rewrite Hp. reflexivity. Qed.
Lemma put_col W i k E p c : inb (nsum k ws) (ws k) c = false -> put W i k E p c = W p c.
Proof. intros Hp. unfold put. rewrite Hp, andb_false_r. reflexivity. Qed.
Lemma updW_col alpha W k t u p c : inb (nsum k ws) (ws k) c = false -> updW alpha k t u W p c = W p c.
Proof. intros Hp. unfold updW. rewrite Hp, andb_false_r. reflexivity. Qed.
Lemma updW_in alpha W k t p c : p < N -> inb (nsum k ws) (ws k) c = true -> updW alpha k t R W p c = if donep (S t) p then W p c else (W p c + alpha * con (sg t) W p c)%F.
Proof. intros Hp Hc. unfold updW, afterp. rewrite Hc, done_R by exact Hp. cbn [andb]. rewrite andb_true_r. destruct (donep (S t) p); reflexivity. Qed.

Lemma cstep_solve X W k t E c : t < R -> inb (nsum k ws) (ws k) c = true -> bpost true (sg t) k (at2 W (sg t) k) E ->
  sinv N U (fun p => X p c) (donep t) (fun p => W p c) ->
  sinv N U (fun p => X p c) (donep (S t)) (fun p => updW (- (1))%F k t R (put W (sg t) k E) p c).
Proof.
  intros Ht Hc HB HI. pose proof (sg_lt t Ht) as St. set (B := inb (nsum (sg t) hs) (hs (sg t))).
  assert (Hc' := Hc). apply inb_iff in Hc'.
  eapply (sinv_step RL N U _ (donep t) B (donep (S t)) _ (fun p => put W (sg t) k E p c)); [| | |exact HI| | | |]; cbv beta.
  - intros q Hq. apply done_S; assumption.
  - intros q Hq. apply done_not; assumption.
  - intros p q Hp Hq H1 H2. apply HU0. exact (done_order t p q Ht Hp H1 H2).
  - intros p Hp E1. unfold B. rewrite msk_con by exact St. unfold B in E1. pose proof E1 as E2. apply inb_iff in E2.
    assert (Hp' : p - nsum (sg t) hs < hs (sg t)) by lia. assert (Hc2 : c - nsum k ws < ws k) by lia. pose proof (HB _ _ Hp' Hc2) as HBp. cbn in HBp. unfold at2 in HBp.
    replace (nsum (sg t) hs + (p - nsum (sg t) hs)) with p in HBp by lia. replace (nsum k ws + (c - nsum k ws)) with c in HBp by lia. rewrite <- HBp.
    unfold contrib. apply sum_ext. intros q Hq. rewrite put_in by (try assumption; apply inb_own, Hq). f_equal. f_equal. lia.
  - intros p Hp E1. apply put_row, E1.
  - intros p Hp E1. rewrite updW_in, E1 by assumption. reflexivity.
  - intros p Hp E1. rewrite updW_in, E1 by assumption. unfold B. rewrite msk_con by exact St. ring.
Qed.
Lemma cstep_eval X W k t E c : t < R -> inb (nsum k ws) (ws k) c = true -> bpost false (sg t) k (at2 (updW f1 k t R W) (sg t) k) E ->
  einv N U (fun p => X p c) (fun p => negb (donep (S t) p)) (fun p => W p c) ->
  einv N U (fun p => X p c) (fun p => negb (donep t p)) (fun p => put (updW f1 k t R W) (sg t) k E p c).
Proof.
  intros Ht Hc HB HI. pose proof (sg_lt t Ht) as St. set (B := inb (nsum (sg t) hs) (hs (sg t))).
  assert (Hc' := Hc). apply inb_iff in Hc'.
  eapply (einv_step RL N U _ (fun p => negb (donep (S t) p)) B (fun p => negb (donep t p)) _ (fun p => updW f1 k t R W p c)); [| | |exact HI| | | |]; cbv beta.
  - intros q Hq. rewrite done_S by assumption. fold B. pose proof (done_not t q Ht Hq) as DN. fold B in DN. destruct (donep t q), (B q); cbn in *; congruence.
  - intros q Hq. rewrite done_S by assumption. fold B. destruct (donep t q), (B q); reflexivity.
  - intros p q Hp Hq H1 H2. apply HU0. apply negb_true_iff in H2. pose proof (after_order t q p Ht Hq H2 H1) as HO. exact HO.
  - intros p Hp E1. apply negb_true_iff in E1. rewrite updW_in, E1 by assumption. unfold B. rewrite msk_con by exact St. ring.
  - intros p Hp E1. apply negb_false_iff in E1. rewrite updW_in, E1 by assumption. reflexivity.
  - intros p Hp E1. unfold B. rewrite msk_con by exact St. unfold B in E1. rewrite put_in by assumption. apply inb_iff in E1.
    assert (Hp' : p - nsum (sg t) hs < hs (sg t)) by lia. assert (Hc2 : c - nsum k ws < ws k) by lia. pose proof (HB _ _ Hp' Hc2) as HBp. cbn in HBp. unfold at2 in HBp.
    replace (nsum (sg t) hs + (p - nsum (sg t) hs)) with p in HBp by lia. replace (nsum k ws + (c - nsum k ws)) with c in HBp by lia. rewrite HBp. reflexivity.
  - intros p Hp E1. apply put_row, E1.
Qed.

Definition colok (solve : bool) X W (c : nat) : Prop := forall p, p < N -> if solve then sum N (fun q => U p q * W q c)%F = X p c else W p c = sum N (fun q => U p q * X q c)%F.

Section All.
Context (O : qops K) (svd : mat -> vec -> mat -> mat -> prog K unit) (rank : vec -> prog K nat).
Variables (solve atrans : bool) (la : list hmx) (rec : option (list (hmx -> hmx -> prog K hmx))).
Hypothesis Hupd : forall t u, t < u < R -> exists a, nth_error la (blk atrans R (sg u) (sg t)) = Some a /\
  forall k si sj ui uj m1 F1 X1 Z1 alpha, k < C -> nth_error l0 (tidx xt R C (sg t) k) = Some si -> nth_error l0 (tidx xt R C (sg u) k) = Some sj -> hlike si ui -> hlike sj uj ->
    moves m0 (fpl l0) F1 m1 -> (forall a, hfp ui a \/ hfp uj a -> F1 a) -> disj (hfp ui) (hfp uj) ->
    hrep m1 ui (tr xt X1) -> hmut m1 ui -> hrep m1 uj (tr xt Z1) -> hmut m1 uj -> fconj alpha = alpha ->
    wp TT TT (updson O svd rank alpha atrans xt a ui uj) m1 (hpost m1 uj (tr xt (fun p c => Z1 p c + alpha * sum (hs (sg t)) (fun q => U (nsum (sg u) hs + p)%nat (nsum (sg t) hs + q)%nat * X1 q c))%F)).
Hypothesis Hgo : forall i k, i < R -> k < C -> exists a go, nth_error la (i + i * R) = Some a /\ sget (K := K) rec (tidx xt R C i k) = Ret go /\
  forall si ui m1 F1 X1 (Q : hmx -> mem K -> Prop), nth_error l0 (tidx xt R C i k) = Some si -> hlike si ui -> moves m0 (fpl l0) F1 m1 -> (forall a, hfp ui a -> F1 a) ->
    hrep m1 ui (tr xt X1) -> hmut m1 ui -> (forall E s' m', bpost solve i k X1 E -> hpost m1 ui (tr xt E) s' m' -> Q s' m') -> wp TT TT (go a ui) m1 Q.

Lemma Hupd' alpha : fconj alpha = alpha -> forall t u, t < u < R -> exists a, nth_error la (blk atrans R (sg u) (sg t)) = Some a /\
  forall k si sj ui uj m1 F1 X1 Z1, k < C -> nth_error l0 (tidx xt R C (sg t) k) = Some si -> nth_error l0 (tidx xt R C (sg u) k) = Some sj -> hlike si ui -> hlike sj uj ->
    moves m0 (fpl l0) F1 m1 -> (forall a, hfp ui a \/ hfp uj a -> F1 a) -> disj (hfp ui) (hfp uj) ->
    hrep m1 ui (tr xt X1) -> hmut m1 ui -> hrep m1 uj (tr xt Z1) -> hmut m1 uj ->
    wp TT TT (updson O svd rank alpha atrans xt a ui uj) m1 (hpost m1 uj (tr xt (fun p c => Z1 p c + alpha * sum (hs (sg t)) (fun q => U (nsum (sg u) hs + p)%nat (nsum (sg t) hs + q)%nat * X1 q c))%F)).
Proof. intros Ea t u Htu. destruct (Hupd t u Htu) as (a & Na & Ha). exists a. split; [exact Na|]. intros. eapply Ha; eassumption. Qed.

Lemma wp_tricols X l m (Q : list hmx -> mem K -> Prop) : tf l X m ->
  (forall l' W m', (forall c, c < nsum C ws -> colok solve X W c) -> tf l' W m' -> Q l' m') ->
  wp TT TT (forS 0 C (fun k (l : list hmx) =>
        forS 0 R (fun t (l : list hmx) =>
          if solve then
            l <- diagcol fwd xt rec (Some la) R R C k t l ;;
            updcol O svd rank (- (1))%F fwd atrans xt (Some la) R R C k t l
          else
            l <- updcol O svd rank f1 fwd atrans xt (Some la) R R C k (R - 1 - t) l ;;
            diagcol fwd xt rec (Some la) R R C k (R - 1 - t) l) l) l) m Q.
Proof using All.
  intros HF HQ.
  apply (wp_forS (fun k l' m' => exists W, tf l' W m' /\ (forall c, c < nsum k ws -> colok solve X W c) /\ (forall p c, p < N -> nsum k ws <= c -> W p c = X p c))).
  - exists X. split; [exact HF|]. split; [cbn; lia|reflexivity].
  - intros k l1 m1 [_ Hk] (W1 & HF1 & HD1 & HE1). cbn in Hk.
    set (ci := fun (s : nat) W (c : nat) => if solve then sinv N U (fun p => X p c) (donep s) (fun p => W p c) else einv N U (fun p => X p c) (fun p => negb (donep (R - s) p)) (fun p => W p c)).
    apply (wp_forS (fun (s : nat) l' m' => exists W, tf l' W m' /\ (forall c, c < nsum k ws -> colok solve X W c) /\ (forall c, inb (nsum k ws) (ws k) c = true -> ci s W c) /\ (forall p c, p < N -> nsum (S k) ws <= c -> W p c = X p c))).
    + exists W1. split; [exact HF1|]. split; [exact HD1|]. split.
      * intros c Hc. apply inb_iff in Hc. unfold ci. destruct solve.
        -- intros p Hp; cbv beta. rewrite done_0 by exact Hp. rewrite (msk_none RL) by (intros q Hq; apply done_0, Hq). rewrite HE1 by lia. ring.
        -- intros p Hp; cbv beta. rewrite Nat.sub_0_r, done_R by exact Hp. cbn [negb]. apply HE1; lia.
      * intros p c Hp Hc. apply HE1; [exact Hp|]. cbn [nsum] in Hc. lia.
    + intros t l2 m2 [_ Ht] (W2 & HF2 & HD2 & HI2 & HE2). cbn in Ht.
      assert (Hcol : forall W W' c, (forall p, W' p c = W p c) -> colok solve X W c -> colok solve X W' c).
      { intros W W' c HW HC p Hp. specialize (HC p Hp). destruct solve; [rewrite <- HC; apply sum_ext; intros q _|]; rewrite HW; [reflexivity|exact HC]. }
      assert (Hout : forall c, c < nsum k ws \/ nsum (S k) ws <= c -> inb (nsum k ws) (ws k) c = false).
      { intros c Hc. apply Bool.not_true_iff_false. rewrite inb_iff. cbn [nsum] in Hc. lia. }
      destruct solve eqn:Esol.
      * apply wp_bind. eapply (wp_diagcol true la rec Hgo k t l2 W2 m2); [exact Hk|exact Ht|exact HF2|]. intros E l3 m3 HB HF3.
        eapply (wp_updcol O svd rank atrans la (- (1))%F (Hupd' (- (1))%F ltac:(rewrite (fconj_opp RL), (fconj_1 RL); reflexivity)) k t l3 _ m3); [exact Hk|exact Ht|exact HF3|]. intros l4 m4 HF4.
        eexists. split; [exact HF4|]. split; [|split].
        -- intros c Hc. eapply Hcol; [|apply (HD2 c Hc)]. intros p. rewrite updW_col, put_col by (apply Hout; auto). reflexivity.
        -- intros c Hc. unfold ci. eapply cstep_solve; [exact Ht|exact Hc|exact HB|]. exact (HI2 c Hc).
        -- intros p c Hp Hc. rewrite updW_col, put_col by (apply Hout; auto). apply HE2; assumption.
      * assert (Ht' : R - 1 - t < R) by lia.
        apply wp_bind. eapply (wp_updcol O svd rank atrans la f1 (Hupd' f1 (fconj_1 RL)) k (R - 1 - t) l2 W2 m2); [exact Hk|exact Ht'|exact HF2|]. intros l3 m3 HF3.
        eapply (wp_diagcol false la rec Hgo k (R - 1 - t) l3 _ m3); [exact Hk|exact Ht'|exact HF3|]. intros E l4 m4 HB HF4.
        eexists. split; [exact HF4|]. split; [|split].
        -- intros c Hc. eapply Hcol; [|apply (HD2 c Hc)]. intros p. rewrite put_col, updW_col by (apply Hout; auto). reflexivity.
        -- intros c Hc. unfold ci. replace (R - S t) with (R - 1 - t) by lia. eapply cstep_eval; [exact Ht'|exact Hc|exact HB|].
           pose proof (HI2 c Hc) as HI. unfold ci in HI. replace (R - t) with (S (R - 1 - t)) in HI by lia. exact HI.
        -- intros p c Hp Hc. rewrite put_col, updW_col by (apply Hout; auto). apply HE2; assumption.
    + cbn [Nat.add]. intros l2 m2 (W2 & HF2 & HD2 & HI2 & HE2). exists W2. split; [exact HF2|]. split; [|exact HE2].
      intros c Hc. destruct (Nat.lt_ge_cases c (nsum k ws)) as [Hlt|Hge]; [apply HD2, Hlt|]. cbn [nsum] in Hc.
      assert (Hin : inb (nsum k ws) (ws k) c = true) by (apply inb_iff; lia). pose proof (HI2 c Hin) as HI. unfold ci in HI. intros p Hp. destruct solve.
      * specialize (HI p Hp). cbv beta in HI. rewrite done_R in HI by exact Hp. rewrite <- HI. symmetry. apply msk_all. intros q Hq. apply done_R, Hq.
      * specialize (HI p Hp). cbv beta in HI. rewrite Nat.sub_diag, done_0 in HI by exact Hp. cbn [negb] in HI. rewrite HI. apply msk_all. intros q Hq. rewrite done_0 by exact Hq. reflexivity.
  - cbn [Nat.add]. intros l1 m1 (W1 & HF1 & HD1 & HE1). eapply HQ; eassumption.
Qed.
End All.
End Forest.
End Loops.
