(** * Krylov methods: properties of the sequences, solvers *)
From Coq Require Import Arith Lia List Bool Ring Field.
From Verif Require Import Fld Prog View Spec Loop Avector AvectorP Amatrix AmatrixP AmatrixP2 Arr Sparse SparseP Factor Lr Chol Qr LrP QrP Krylov KrylovSpec KrylovP KrylovP2 KrylovP3 KrylovP4.
Import ListNotations.

Section KrylovP5.
Context {K : fops} (L : field_laws K).
Let RL := fl_ring K L.
Add Ring KringK : (rl_ring K (fl_ring K L)).
Add Field KfieldK : (K_field L).
Implicit Types (m : mem K) (F : addr -> Prop).
Notation WP := (wp TT TT).
Notation vect := (nat -> K).

(** ** The conjugate gradient sequences *)
Section Seq.
Variables (n : nat) (A N : nat -> nat -> K) (b : vect) (X P : nat -> nat -> K).
Hypothesis HA : hermitian n A.
Hypothesis HN : hermitian n N.
Hypothesis HS : cgseq n A N b X P.
Notation R := (resid n A b X).
Notation Q := (fun k => mvec n N (R k)).

Lemma seq_R k i : i < n -> R (S k) i = (R k i - lam n A R P k * mvec n A (P k) i)%F.
Proof.
  intros Hi. unfold resid at 1. rewrite (mvec_ext n A A (X (S k)) (fun j => X k j + lam n A R P k * P k j)%F).
  - rewrite (mvec_add L). unfold resid. ring.
  - auto.
  - intros j Hj. apply (cs_X _ _ _ _ _ _ HS). exact Hj.
Qed.
Lemma seq_P k i : i < n -> P (S k) i = (Q (S k) i - muc n A P Q k * P k i)%F.
Proof. intros Hi. apply (cs_P _ _ _ _ _ _ HS). exact Hi. Qed.
Lemma seq_Q i j : dot n (Q i) (R j) = dot n (R i) (Q j).
Proof. apply (herm_dot L). exact HN. Qed.

Lemma seq_orth k : nobreak n A N b X P k ->
  forall i j, i < j -> j <= k -> dot n (P i) (R j) = f0 /\ dot n (P i) (mvec n A (P j)) = f0 /\ dot n (Q i) (R j) = f0.
Proof.
  intros H. apply (cg_orth L n A HA R P Q); [apply (cs_P0 _ _ _ _ _ _ HS)|exact seq_R|exact seq_P|exact seq_Q|exact H].
Qed.

Lemma seq_end : definite n A -> definite n N -> exists k, k <= n /\ forall i, i < n -> mvec n A (X k) i = b i.
Proof.
  intros dA dN.
  destruct (cg_end L n A HA R P Q) as (k & Hk & H); [apply (cs_P0 _ _ _ _ _ _ HS)|exact seq_R|exact seq_P|exact seq_Q|exact dA| |].
  - intros k E. apply dN. rewrite <- seq_Q. exact E.
  - exists k. split; [exact Hk|]. intros i Hi. specialize (H i Hi). unfold resid in H.
    transitivity (b i - (b i - mvec n A (X k) i))%F; [ring|]. rewrite H. ring.
Qed.

(** The iterate is optimal: Pythagoras' theorem in the energy norm. *)
Lemma seq_opt k xs d : nobreak n A N b X P k -> (forall i, i < n -> mvec n A xs i = b i) -> inspan n P k d ->
  let e := (fun i => xs i - X k i)%F in let e' := (fun i => xs i - (X k i + d i))%F in
  dot n e' (mvec n A e') = (dot n e (mvec n A e) + dot n d (mvec n A d))%F.
Proof.
  intros Hk Hxs (z & Hz) e e'.
  assert (HAe : forall i, i < n -> mvec n A e i = R k i).
  { intros i Hi. rewrite (mvec_ext n A A e (fun j => xs j - f1 * X k j)%F) by (auto; intros; unfold e; ring).
    rewrite (mvec_sub L), Hxs by exact Hi. unfold resid. ring. }
  assert (HdR : dot n d (R k) = f0).
  { rewrite (dot_ext' n d (fun i => sum k (fun j => z j * P j i))%F (R k) (R k)) by auto.
    unfold dot. rewrite (sum_ext n _ (fun i => sum k (fun j => fconj (z j) * (fconj (P j i) * R k i)))%F).
    2:{ intros i Hi. rewrite (sum_conj RL), <- (sum_mul_r RL). apply sum_ext. intros j Hj. rewrite (rl_conj_mul _ RL). ring. }
    rewrite (sum_swap RL). apply (sum_0 RL). intros j Hj. rewrite (sum_mul_l RL). fold (dot n (P j) (R k)).
    rewrite (proj1 (seq_orth k Hk j k Hj (le_n k))). ring. }
  assert (E' : forall i, i < n -> mvec n A e' i = (R k i - f1 * mvec n A d i)%F).
  { intros i Hi. rewrite (mvec_ext n A A e' (fun j => e j - f1 * d j)%F) by (auto; intros; unfold e, e'; ring).
    rewrite (mvec_sub L), HAe by exact Hi. reflexivity. }
  rewrite (dot_ext' n e' (fun j => e j - f1 * d j)%F (mvec n A e') (fun i => R k i - f1 * mvec n A d i)%F)
    by (auto; intros; unfold e, e'; ring).
  rewrite (dot_sub_l L), !(dot_sub_r L), (fconj_1 RL), HdR.
  rewrite <- (herm_dot L n A e d HA).
  rewrite (dot_ext' n (mvec n A e) (R k) d d) by auto. rewrite (dot_swap L n (R k) d), HdR, (fconj_0 RL).
  rewrite (dot_ext' n e e (mvec n A e) (R k)) by auto. ring.
Qed.
End Seq.

(** The programs compute such sequences. *)
Lemma pcg_seq n (A N : nat -> nat -> K) (bf xf : vect) : cgseq n A N bf (cX n A (mvec n N) bf xf) (cP n A (mvec n N) bf xf).
Proof.
  assert (ER : forall k i, i < n -> resid n A bf (cX n A (mvec n N) bf xf) k i = cR n A (mvec n N) bf xf k i).
  { intros k i Hi. symmetry. apply (cg_res L n A (mvec n N) bf xf k i Hi). }
  assert (EQ : forall k i, mvec n N (resid n A bf (cX n A (mvec n N) bf xf) k) i = mvec n N (cR n A (mvec n N) bf xf k) i)
    by (intros; apply mvec_ext; auto).
  constructor.
  - intros i Hi. rewrite EQ. reflexivity.
  - intros k i Hi. rewrite (cg_X n A (mvec n N) bf xf k i). unfold lam, gam.
    rewrite (dot_ext' n _ (cP n A (mvec n N) bf xf k) (resid n A bf (cX n A (mvec n N) bf xf) k) (cR n A (mvec n N) bf xf k)) by auto.
    reflexivity.
  - intros k i Hi. rewrite (cg_P L n A (mvec n N) bf xf k i Hi), EQ. unfold muc, gam.
    rewrite (dot_ext' n _ (mvec n A (cP n A (mvec n N) bf xf k)) (mvec n N (resid n A bf (cX n A (mvec n N) bf xf) (S k))) (mvec n N (cR n A (mvec n N) bf xf (S k)))) by auto.
    reflexivity.
Qed.
Lemma cg_seq n (A : nat -> nat -> K) (bf xf : vect) : cgseq n A idf bf (cX n A (fun v => v) bf xf) (cP n A (fun v => v) bf xf).
Proof.
  set (X := cX n A (fun v => v) bf xf). set (P := cP n A (fun v => v) bf xf). set (Rr := cR n A (fun v => v) bf xf).
  assert (ER : forall k i, i < n -> resid n A bf X k i = Rr k i) by (intros k i Hi; symmetry; apply (cg_res L n A (fun v => v) bf xf k i Hi)).
  assert (EQ : forall k i, i < n -> mvec n idf (resid n A bf X k) i = Rr k i) by (intros; rewrite (mvec_id L) by assumption; auto).
  constructor.
  - intros i Hi. rewrite EQ by exact Hi. reflexivity.
  - intros k i Hi. unfold X at 1. rewrite (cg_X n A (fun v => v) bf xf k i). unfold lam, gam. fold X P Rr.
    rewrite (dot_ext' n _ (P k) (resid n A bf X k) (Rr k)) by auto. reflexivity.
  - intros k i Hi. unfold P at 1. rewrite (cg_P L n A (fun v => v) bf xf k i Hi), EQ by exact Hi. unfold muc, gam. fold X P Rr.
    rewrite (dot_ext' n _ (mvec n A (P k)) (mvec n idf (resid n A bf X (S k))) (Rr (S k))) by auto. reflexivity.
Qed.

Lemma bicg_seq n (A : nat -> nat -> K) (bf xf : vect) : bicgseq n A bf (bX n A bf xf) (bRt n A bf xf) (bP n A bf xf) (bPt n A bf xf).
Proof.
  set (X := bX n A bf xf). set (Rt := bRt n A bf xf). set (P := bP n A bf xf). set (Pt := bPt n A bf xf). set (Rr := bR n A bf xf).
  assert (ER : forall k i, i < n -> resid n A bf X k i = Rr k i) by (intros k i Hi; symmetry; apply (bi_res L n A bf xf k i Hi)).
  assert (ED : forall k w, dot n (resid n A bf X k) w = dot n (Rr k) w) by (intros; apply dot_ext'; auto).
  constructor.
  - intros i Hi. rewrite ER by exact Hi. repeat split.
  - intros k i Hi. unfold X at 1. rewrite (bi_X n A bf xf k i), ED. reflexivity.
  - intros k i Hi. unfold Rt at 1. rewrite (bi_Rt L n A bf xf k i), ED. reflexivity.
  - intros k i Hi. unfold P at 1. rewrite (bi_P L n A bf xf k i), !ED, ER by exact Hi. reflexivity.
  - intros k i Hi. unfold Pt at 1. rewrite (bi_Pt L n A bf xf k i), !ED. reflexivity.
Qed.

Lemma bicgseq_orth n (A : nat -> nat -> K) (b : vect) X Rt P Pt : (forall a : K, fconj a = a) -> bicgseq n A b X Rt P Pt ->
  forall k, (forall j, j < k -> dot n (mvec n A (P j)) (Pt j) <> f0 /\ dot n (resid n A b X j) (Rt j) <> f0) ->
  forall i j, i <> j -> i <= k -> j <= k ->
    dot n (resid n A b X i) (Rt j) = f0 /\ dot n (mvec n A (P i)) (Pt j) = f0.
Proof.
  intros Hr HS k Hk. apply (bicg_orth L Hr n A (resid n A b X) Rt P Pt); try exact Hk.
  - intros i Hi. apply (bs_0 _ _ _ _ _ _ _ HS i Hi).
  - intros i Hi. apply (bs_0 _ _ _ _ _ _ _ HS i Hi).
  - intros j i Hi. unfold resid at 1. rewrite (mvec_ext n A A (X (S j)) (fun l => X j l + bal n A (resid n A b X) Rt P Pt j * P j l)%F).
    + rewrite (mvec_add L). unfold resid. ring.
    + auto.
    + intros l Hl. apply (bs_X _ _ _ _ _ _ _ HS). exact Hl.
  - intros j i Hi. apply (bs_Rt _ _ _ _ _ _ _ HS j i Hi).
  - intros j i Hi. apply (bs_P _ _ _ _ _ _ _ HS j i Hi).
  - intros j i Hi. apply (bs_Pt _ _ _ _ _ _ _ HS j i Hi).
Qed.
Lemma bicgseq_end n (A : nat -> nat -> K) (b : vect) X Rt P Pt : (forall a : K, fconj a = a) -> bicgseq n A b X Rt P Pt ->
  exists k, k <= n /\ (dot n (mvec n A (P k)) (Pt k) = f0 \/ dot n (resid n A b X k) (Rt k) = f0).
Proof.
  intros Hr HS. apply (bicg_end L Hr n A (resid n A b X) Rt P Pt).
  - intros i Hi. apply (bs_0 _ _ _ _ _ _ _ HS i Hi).
  - intros i Hi. apply (bs_0 _ _ _ _ _ _ _ HS i Hi).
  - intros j i Hi. unfold resid at 1. rewrite (mvec_ext n A A (X (S j)) (fun l => X j l + bal n A (resid n A b X) Rt P Pt j * P j l)%F).
    + rewrite (mvec_add L). unfold resid. ring.
    + auto.
    + intros l Hl. apply (bs_X _ _ _ _ _ _ _ HS). exact Hl.
  - intros j i Hi. apply (bs_Rt _ _ _ _ _ _ _ HS j i Hi).
  - intros j i Hi. apply (bs_P _ _ _ _ _ _ _ HS j i Hi).
  - intros j i Hi. apply (bs_Pt _ _ _ _ _ _ _ HS j i Hi).
Qed.

(** ** Memory *)
Lemma inv_dec v a : inv v a \/ ~ inv v a.
Proof.
  destruct a as [bl o].
  destruct (Nat.eq_dec bl (vblk v)) as [->|N1]; [|right; intros (i & _ & [= E _]); congruence].
  destruct (le_lt_dec (voff v) o) as [H|H]; [|right; intros (i & _ & [= E]); lia].
  destruct (lt_dec (o - voff v) (vdim v)) as [H'|H']; [|right; intros (i & Hi & [= E]); lia].
  left. exists (o - voff v). split; [exact H'|]. unfold va. f_equal. lia.
Qed.
Lemma keeps_drop (W W' : addr -> Prop) v f m m' : keeps W m m' -> vval m v f -> vval m' v f ->
  (forall a, W a -> W' a \/ inv v a) -> keeps W' m m'.
Proof.
  intros [H1 H2] Hv Hv' HW. split; [exact H1|]. intros a Ha. destruct (inv_dec v a) as [(i & Hi & ->)|Hn].
  - rewrite (Hv i Hi), (Hv' i Hi). reflexivity.
  - apply H2. intros C. destruct (HW a C); tauto.
Qed.
Lemma vval_old m v f a : vval m v f -> inv v a -> fst a < next m.
Proof.
  intros H (i & Hi & ->). specialize (H i Hi). unfold get in H. destruct (Nat.ltb_spec (fst (va v i)) (next m)); [assumption|discriminate].
Qed.

(** ** The loop of the solvers *)
Lemma w_kry_loop (O : qops K) step r bound (Inv : nat -> mem K -> Prop) (E : nat -> K) :
  (forall k m (Q : unit -> mem K -> Prop), Inv k m -> (forall m', Inv (S k) m' -> Q tt m') -> WP step m Q) ->
  (forall k m (Q : K -> mem K -> Prop), Inv k m -> Q (E k) m -> WP (norm2_avector (rsqrt O) r) m Q) ->
  forall cnt k m (Q : nat -> mem K -> Prop), Inv k m ->
    (forall it m', k <= it <= k + cnt -> Inv it m' -> (it = k + cnt \/ gtb O (E it) bound = false) ->
       (forall j, k <= j < it -> gtb O (E j) bound = true) -> Q it m') ->
    WP (kry_loop O step r bound cnt (E k) k) m Q.
Proof.
  intros Hs Hn. induction cnt as [|cnt IH]; intros k m Q HI HQ; cbn [kry_loop].
  - apply (HQ k m); [lia|exact HI|left; lia|lia].
  - destruct (gtb O (E k) bound) eqn:G; [|apply (HQ k m); [lia|exact HI|right; exact G|lia]].
    apply wp_bind. eapply Hs; [exact HI|]. intros m1 HI1. apply wp_bind. eapply Hn; [exact HI1|].
    rewrite Nat.add_1_r. apply IH; [exact HI1|]. intros it m' Hit HI' Hend Hbefore.
    apply HQ; [lia|exact HI'|destruct Hend; [left; lia|right; assumption]|].
    intros j Hj. destruct (Nat.eq_dec j k) as [->|]; [exact G|]. apply Hbefore. lia.
Qed.

(** ** The solvers *)
Section Solve.
Variable O : qops K.
Variable ev : addeval_t K.
Variables (n : nat) (A : nat -> nat -> K) (F : addr -> Prop) (I : mem K -> Prop).
Hypothesis Hev : op_ok ev n n A F I.
Variables b x : vec.
Variables bf xf : vect.
Variable m : mem K.
Hypothesis HI : I m.
Hypothesis Hb : vval m b bf.
Hypothesis Hx : vval m x xf.
Hypothesis Hdb : vdim b = n.
Hypothesis Hdx : vdim x = n.
Hypothesis Hbx : disj (inv b) (inv x).
Hypothesis HFb : disj F (inv b).
Hypothesis HFx : disj F (inv x).

Lemma fresh_disj k (mm : mem K) (P : addr -> Prop) : (forall a, P a -> fst a < next mm) -> next mm <= k -> disj P (inv (Vec k 0 n true)).
Proof. intros H Hk a Ha Hi. apply H in Ha. apply inv_blk in Hi. cbn in Hi. lia. Qed.

Lemma solve_cg_wp eps maxiter (Q : nat -> mem K -> Prop) :
  let X := cX n A (fun v => v) bf xf in
  let E k := rsqrt O (dot n (cR n A (fun v => v) bf xf k) (cR n A (fun v => v) bf xf k)) in
  let bound := (eps * rsqrt O (dot n bf bf))%F in
  (forall it m', it <= upred maxiter -> vval m' x (X it) -> keeps (inv x) m m' ->
     (it = upred maxiter \/ gtb O (E it) bound = false) -> (forall j, j < it -> gtb O (E j) bound = true) -> Q it m') ->
  WP (solve_cg_avector O ev b x eps maxiter) m Q.
Proof.
  intros X E bound HQ. unfold solve_cg_avector. rewrite Hdx, Hdb.
  apply wp_bind. apply wp_assert; [apply Nat.eqb_refl|].
  apply wp_bind, wp_init_avector. intros r -> Hr. set (m1 := alloc m n) in *. set (r := Vec (next m) 0 n true) in *.
  apply wp_bind, wp_init_avector. intros p -> Hp. set (m2 := alloc m1 n) in *. set (p := Vec (next m1) 0 n true) in *.
  apply wp_bind, wp_init_avector. intros a -> Ha. set (m3 := alloc m2 n) in *. set (a := Vec (next m2) 0 n true) in *.
  assert (N1 : next m1 = S (next m)) by reflexivity. assert (N2 : next m2 = S (next m1)) by reflexivity. assert (N3 : next m3 = S (next m2)) by reflexivity.
  assert (Hal : forall c, fst c < next m -> get m3 c = get m c).
  { intros c Hc. unfold m3, m2, m1. rewrite !get_alloc_old; [reflexivity|cbn; lia..]. }
  assert (HF : forall c, F c -> fst c < next m) by (intros c Hc; exact (op_old _ _ _ _ _ _ Hev m c HI Hc)).
  assert (Hob : forall c, inv b c -> fst c < next m) by (intros c Hc; exact (vval_old _ _ _ _ Hb Hc)).
  assert (Hox : forall c, inv x c -> fst c < next m) by (intros c Hc; exact (vval_old _ _ _ _ Hx Hc)).
  assert (Hrp : disj (inv r) (inv p)) by (apply vval_disj_blk; cbn; lia).
  assert (Hra : disj (inv r) (inv a)) by (apply vval_disj_blk; cbn; lia).
  assert (Hpa : disj (inv p) (inv a)) by (apply vval_disj_blk; cbn; lia).
  assert (Hsep : separate F [b; x; r; p; a]).
  { assert (HP : forall P : addr -> Prop, (forall c, P c -> fst c < next m) -> disj P (inv r) /\ disj P (inv p) /\ disj P (inv a)).
    { intros P HP. split; [|split]; (eapply (fresh_disj _ m); [exact HP|lia]). }
    cbn [separate In]. destruct (HP _ HF) as (? & ? & ?). destruct (HP _ Hob) as (? & ? & ?). destruct (HP _ Hox) as (? & ? & ?).
    repeat split; try assumption; intros y; intuition (subst; auto). }
  assert (Hdim : Forall (fun v => vdim v = n) [b; x; r; p; a]) by (repeat constructor; assumption).
  assert (Hst : vst I m3 [b; x; r; p; a] m3 [Some bf; Some xf; None; None; None]).
  { split; [|split; [apply keeps_refl|]].
    - apply (op_keep _ _ _ _ _ _ Hev m m3 (fun c => next m <= fst c)); [exact HI| |intros c Hc Hc'; apply HF in Hc; lia].
      split; [lia|]. intros c Hc. apply Hal. lia.
    - repeat constructor; cbn.
      + intros i Hi. rewrite Hal; [apply Hb, Hi|]. apply Hob. apply inv_va. exact Hi.
      + intros i Hi. rewrite Hal; [apply Hx, Hi|]. apply Hox. apply inv_va. exact Hi.
      + intros i Hi. unfold m3, m2. rewrite !get_alloc_old by (cbn; lia). apply Hr. exact Hi.
      + intros i Hi. unfold m3. rewrite !get_alloc_old by (cbn; lia). apply Hp. exact Hi.
      + exact Ha. }
  apply wp_bind. eapply w_norm2 with (i := 0) (n := n); [exact Hst|reflexivity|reflexivity|exact Hdb|]. fold bound.
  apply wp_bind. eapply (w_init_cg ev n A F I Hev b x r p a Hsep Hdim m3 m3 bf xf); [exact Hst|]. clear Hst. intros m4 Hst.
  apply wp_bind. eapply w_norm2 with (i := 2) (n := n); [exact Hst|reflexivity|reflexivity|reflexivity|].
  change (rsqrt O (dot n (cR n A (fun v : vect => v) bf xf 0) (cR n A (fun v : vect => v) bf xf 0))) with (E 0).
  apply wp_bind.
  eapply (w_kry_loop O _ r bound (fun k mm => exists oa, vst I m3 [b; x; r; p; a] mm
     [Some bf; Some (X k); Some (cR n A (fun v => v) bf xf k); Some (cP n A (fun v => v) bf xf k); oa]) E).
  - intros k mm Q' (oa & Hs) HQ'. eapply (w_step_cg L ev n A F I Hev b x r p a Hsep Hdim m3 mm bf xf k); [exact Hs|].
    intros m' Hs'. apply HQ'. eexists. exact Hs'.
  - intros k mm Q' (oa & Hs) HQ'. eapply w_norm2 with (i := 2) (n := n); [exact Hs|reflexivity|reflexivity|reflexivity|exact HQ'].
  - exists None. exact Hst.
  - clear m4 Hst. intros it m4 Hit (oa & Hst) Hend Hbef.
    assert (Hb4 := vst_get _ _ _ _ _ 0 b bf Hst eq_refl eq_refl).
    assert (Hx4 := vst_get _ _ _ _ _ 1 x (X it) Hst eq_refl eq_refl).
    destruct Hst as (HI4 & Hk4 & _). assert (Hn4 := proj1 Hk4).
    unfold uninit_avector. cbn [vown a p r vblk bind pfree wp].
    split; [lia|]. split; [intros; exact Logic.I|]. split; [cbn [dealloc next]; lia|]. split; [intros; exact Logic.I|].
    split; [cbn [dealloc next]; lia|]. split; [intros; exact Logic.I|].
    set (m7 := dealloc _ (next m)).
    assert (G7 : forall c, get m7 c = if next m <=? fst c then (if fst c <? next m3 then Free else get m4 c) else get m4 c).
    { intros c. unfold m7. rewrite !get_dealloc. destruct (Nat.leb_spec (next m) (fst c)), (Nat.ltb_spec (fst c) (next m3));
        destruct (Nat.eqb_spec (fst c) (next m)), (Nat.eqb_spec (fst c) (next m1)), (Nat.eqb_spec (fst c) (next m2)); try reflexivity; lia. }
    assert (Hx7 : vval m7 x (X it)).
    { intros i Hi. rewrite G7. assert (Ho := Hox _ (inv_va x i Hi)). destruct (Nat.leb_spec (next m) (fst (va x i))); [lia|]. apply Hx4. exact Hi. }
    assert (Hb7 : vval m7 b bf).
    { intros i Hi. rewrite G7. assert (Ho := Hob _ (inv_va b i Hi)). destruct (Nat.leb_spec (next m) (fst (va b i))); [lia|]. apply Hb4. exact Hi. }
    apply HQ; [lia|exact Hx7| |destruct Hend; [left; lia|right; assumption]|intros; apply Hbef; lia].
    eapply (keeps_drop (fun c => inv b c \/ inv x c)); [|exact Hb|exact Hb7|tauto].
    split; [unfold m7; cbn [dealloc next]; lia|]. intros c Hc. rewrite G7. destruct (Nat.leb_spec (next m) (fst c)) as [Hlt|Hge].
    + rewrite (get_fresh m c Hlt). destruct (Nat.ltb_spec (fst c) (next m3)); [reflexivity|].
      rewrite (proj2 Hk4). { apply get_fresh. lia. }
      intros (y & Hy & Hi). cbn in Hy. destruct Hy as [<-|[<-|[<-|[<-|[<-|[]]]]]]; [tauto|tauto|apply inv_blk in Hi; cbn in Hi; lia..].
    + rewrite (proj2 Hk4); [apply Hal; exact Hge|].
      intros (y & Hy & Hi). cbn in Hy. destruct Hy as [<-|[<-|[<-|[<-|[<-|[]]]]]]; [tauto|tauto|apply inv_blk in Hi; cbn in Hi; lia..].
Qed.
End Solve.
End KrylovP5.
