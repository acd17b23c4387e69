(** * Least squares problems, linear systems and inverses *)
From Coq Require Import Arith NArith Lia List Bool Ring.
From Verif Require Import Fld Prog View Spec Loop Line Avector Amatrix AvectorP AmatrixP AmatrixP2 Factor FactorSpec FactorP FactorP2 FactorP3 FactorP4 LrP LrP2 Chol CholSpec Qr QrSpec QrP QrP2 QrP3 QrP4 QrP6 QrP7 QrP8.

Section QRP9.
Context {K : fops} (L : field_laws K).
Notation RL := (fl_ring K L).
Add Ring KringQ9 : (rl_ring K (fl_ring K L)).
Implicit Types (m : mem K) (A X : mat) (F G f E M Q : nat -> nat -> K) (t y w g b z : nat -> K).
Notation up F := (tripart false false F).

Lemma mvec_mmul_rect n c M G z i : mvec c (mmul n M G) z i = mvec n M (mvec c G z) i.
Proof.
  unfold mvec, mmul.
  rewrite (sum_ext c _ (fun j => sum n (fun l => M i l * (G l j * z j)))%F).
  2:{ intros j Hj. rewrite <- (sum_mul_r RL). apply sum_ext. intros l Hl. ring. }
  rewrite (sum_swap RL). apply sum_ext. intros l Hl. rewrite (sum_mul_l RL). reflexivity.
Qed.
Lemma unitary_tr n Q : unitary n Q -> unitary n (tr true Q).
Proof.
  intros U i j Hi Hj. destruct (U i j Hi Hj) as [U1 U2]. split.
  - etransitivity; [|exact U2]. apply mmul_ext; [|reflexivity]. intros k Hk. cbn [tr]. apply (rl_conj_conj K RL).
  - etransitivity; [|exact U1]. apply mmul_ext; [reflexivity|]. intros k Hk. cbn [tr]. apply (rl_conj_conj K RL).
Qed.
Lemma unitary_cancel n Q y i : unitary n Q -> i < n -> mvec n (tr true Q) (mvec n Q y) i = y i.
Proof.
  intros U Hi. rewrite <- (mvec_mmul L). rewrite (mvec_ext n _ idf _ y); [apply (mvec_id L), Hi| |reflexivity].
  intros j Hj. apply U; assumption.
Qed.
Lemma unitary_cancel' n Q y i : unitary n Q -> i < n -> mvec n Q (mvec n (tr true Q) y) i = y i.
Proof.
  intros U Hi. rewrite <- (mvec_mmul L). rewrite (mvec_ext n _ idf _ y); [apply (mvec_id L), Hi| |reflexivity].
  intros j Hj. apply U; assumption.
Qed.
Lemma mvec_sub n M y z i : mvec n M (fun j => (y j - z j)%F) i = (mvec n M y i - mvec n M z i)%F.
Proof. unfold mvec. rewrite <- (sum_sub RL). apply sum_ext. intros j Hj. ring. Qed.

(** Pythagoras: the solution of the triangular system minimises the residual. *)
Lemma least_squares n c Q F f b y : unitary n Q -> c <= n ->
  (forall i j, i < n -> j < c -> f i j = mmul n Q (up F) i j) ->
  (forall i, i < c -> mvec c (up F) y i = mvec n (tr true Q) b i) ->
  (forall i, c <= i -> i < n -> y i = mvec n (tr true Q) b i) ->
  forall z, dot n (fun i => mvec c f z i - b i)%F (fun i => mvec c f z i - b i)%F =
    (sum (n - c) (fun i => fconj (y (c + i)%nat) * y (c + i)%nat)
     + dot n (mvec c f (fun j => z j - y j)%F) (mvec c f (fun j => z j - y j)%F))%F.
Proof.
  intros U Hc Hf Hy1 Hy2 z.
  assert (Ef : forall z i, i < n -> mvec c f z i = mvec n Q (mvec c (up F) z) i).
  { intros z' i Hi. rewrite <- mvec_mmul_rect. apply mvec_ext; [|reflexivity]. intros j Hj. apply Hf; assumption. }
  rewrite <- (unitary_dot L n (tr true Q)) by (apply unitary_tr, U).
  assert (E1 : forall i, i < n -> mvec n (tr true Q) (fun i => mvec c f z i - b i)%F i =
     (mvec c (up F) z i - mvec n (tr true Q) b i)%F).
  { intros i Hi. rewrite mvec_sub. f_equal.
    rewrite (mvec_ext n _ (tr true Q) _ (mvec n Q (mvec c (up F) z))); [apply unitary_cancel; assumption|reflexivity|].
    intros j Hj. apply Ef, Hj. }
  assert (E0 : forall z i, c <= i -> mvec c (up F) z i = f0).
  { intros z' i Hi. apply (sum_0 RL). intros j Hj. unfold tripart. bsplit; try lia. ring. }
  set (u := fun i => (mvec c (up F) z i - mvec n (tr true Q) b i)%F) in *.
  set (w := mvec c (up F) (fun j => (z j - y j)%F)).
  assert (D1 : dot n (mvec c f (fun j => (z j - y j)%F)) (mvec c f (fun j => (z j - y j)%F)) = dot n w w).
  { rewrite <- (unitary_dot L n Q w w U). apply dot_ext'; intros i Hi; apply Ef, Hi. }
  rewrite D1. rewrite (dot_ext' n _ u _ u) by exact E1. unfold dot.
  assert (Spl : forall h : nat -> K, sum n h = (sum c h + sum (n - c) (fun i => h (c + i)%nat))%F).
  { intros h. rewrite <- (sum_app RL). f_equal. lia. }
  rewrite (Spl (fun i => fconj (u i) * u i)%F), (Spl (fun i => fconj (w i) * w i)%F).
  rewrite (sum_0 RL (n - c) (fun i => fconj (w (c + i)%nat) * w (c + i)%nat)%F).
  2:{ intros i Hi. unfold w. rewrite E0 by lia. ring. }
  rewrite (sum_ext c (fun i => fconj (u i) * u i)%F (fun i => fconj (w i) * w i)%F).
  2:{ intros i Hi. assert (Eu : u i = w i) by (unfold u, w; rewrite mvec_sub, Hy1 by exact Hi; reflexivity). rewrite Eu. reflexivity. }
  rewrite (sum_ext (n - c) (fun i => fconj (u (c + i)%nat) * u (c + i)%nat)%F (fun i => fconj (y (c + i)%nat) * y (c + i)%nat)%F).
  2:{ intros i Hi. assert (Eu : u (c + i)%nat = (- y (c + i)%nat)%F) by (unfold u; rewrite E0, <- Hy2 by lia; ring).
      rewrite Eu, (fconj_opp RL). ring. }
  ring.
Qed.

Lemma lsq_square n Q F f b y : unitary n Q ->
  (forall i j, i < n -> j < n -> f i j = mmul n Q (up F) i j) ->
  (forall i, i < n -> mvec n (up F) y i = mvec n (tr true Q) b i) ->
  forall i, i < n -> mvec n f y i = b i.
Proof.
  intros U Hf Hy i Hi.
  rewrite (mvec_ext n f (mmul n Q (up F)) _ y); [|intros; apply Hf; assumption|reflexivity].
  rewrite (mvec_mmul L). rewrite (mvec_ext n _ Q _ (mvec n (tr true Q) b)); [apply unitary_cancel'; assumption|reflexivity|exact Hy].
Qed.

(** The adjoint of the matrix annihilates the residual. *)
Lemma normal_equations n c Q F f b y : unitary n Q -> c <= n ->
  (forall i j, i < n -> j < c -> f i j = mmul n Q (up F) i j) ->
  (forall i, i < c -> mvec c (up F) y i = mvec n (tr true Q) b i) ->
  forall j, j < c -> dot n (fun i => f i j) (fun i => mvec c f y i - b i)%F = f0.
Proof.
  intros U Hc Hf Hy j Hj.
  assert (Ef : forall i, i < n -> mvec c f y i = mvec n Q (mvec c (up F) y) i).
  { intros i Hi. rewrite <- mvec_mmul_rect. apply mvec_ext; [|reflexivity]. intros l Hl. apply Hf; assumption. }
  rewrite (dot_ext' n _ (mvec n Q (fun l => up F l j)) _ (fun i => mvec c f y i - b i)%F); [|intros i Hi; apply Hf; assumption|reflexivity].
  rewrite (dot_mvec L). apply (sum_0 RL). intros i Hi.
  destruct (Nat.lt_ge_cases i c) as [Hic|Hic].
  - rewrite mvec_sub.
    rewrite (mvec_ext n (tr true Q) (tr true Q) (mvec c f y) (mvec n Q (mvec c (up F) y))); [|reflexivity|intros l Hl; apply Ef, Hl].
    rewrite unitary_cancel by assumption. rewrite Hy by exact Hic. ring.
  - unfold tripart. bsplit; try lia. rewrite (fconj_0 RL). ring.
Qed.

(** An upper triangular matrix with a zero on its diagonal is singular. *)
Lemma up_singular n F p : p < n -> up F p p = f0 -> (forall i, i < p -> up F i i <> f0) -> singular n (up F).
Proof.
  intros Hp HZ HD.
  destruct (up_exists L p (up F)) with (b := fun i => (- up F i p)%F) as [v Hv].
  { intros i j Hij. unfold tripart. bsplit; try lia; reflexivity. }
  { exact HD. }
  exists (fun i => if i <? p then v i else if i =? p then f1 else f0). split.
  { exists p. split; [exact Hp|]. rewrite Nat.ltb_irrefl, Nat.eqb_refl. apply (fl_1_neq_0 K L). }
  intros i Hi. unfold mvec. replace n with (p + (1 + (n - (p + 1)))) by lia. rewrite !(sum_app RL). cbn [sum].
  rewrite (sum_0 RL (n - (p + 1))).
  2:{ intros j Hj. bsplit; try lia. ring. }
  replace (p + 0) with p by lia. rewrite Nat.ltb_irrefl, Nat.eqb_refl.
  rewrite (sum_ext p _ (fun j => up F i j * v j)%F).
  2:{ intros j Hj. destruct (Nat.ltb_spec j p); [reflexivity|lia]. }
  change (sum p (fun j => up F i j * v j)%F) with (mvec p (up F) v i).
  destruct (Nat.lt_ge_cases i p) as [Hip|Hip].
  - rewrite Hv by exact Hip. ring.
  - assert (E : mvec p (up F) v i = f0).
    { apply (sum_0 RL). intros j Hj. unfold tripart. bsplit; try lia. ring. }
    rewrite E. destruct (Nat.eq_dec i p) as [->|Hne]; [rewrite HZ; ring|]. unfold tripart. bsplit; try lia. ring.
Qed.
Lemma first_zero n F : (forall i, i < n -> up F i i <> f0) \/
  (exists p, p < n /\ up F p p = f0 /\ forall i, i < p -> up F i i <> f0).
Proof.
  induction n as [|n [IH|(p & Hp & H1 & H2)]]; [left; intros; lia| |].
  - destruct (feqb (up F n n) f0) eqn:E.
    + apply (fl_eqb K L) in E. right. exists n. auto.
    + left. intros i Hi E'. destruct (Nat.eq_dec i n) as [->|Hne]; [|apply (IH i); [lia|exact E']].
      apply (fl_eqb K L) in E'. congruence.
  - right. exists p. split; [lia|]. auto.
Qed.
Lemma qr_diag n Q F f : (forall i j, i < n -> j < n -> f i j = mmul n Q (up F) i j) -> regular n f ->
  forall i, i < n -> F i i <> f0.
Proof.
  intros Hf HR. destruct (first_zero n F) as [HD|(p & Hp & H1 & H2)].
  - intros i Hi. specialize (HD i Hi). unfold tripart in HD. rewrite Nat.eqb_refl in HD. exact HD.
  - exfalso. destruct (up_singular n F p Hp H1 H2) as (v & (i & Hi & Hv) & Hz). apply Hv.
    apply (HR v); [|exact Hi]. intros j Hj.
    rewrite (mvec_ext n f (mmul n Q (up F)) _ v); [|intros; apply Hf; assumption|reflexivity].
    rewrite (mvec_mmul L). rewrite (mvec_ext n Q Q _ (fun _ => f0)); [apply (mvec_0 L)|reflexivity|exact Hz].
Qed.
Lemma regular_ext n f f' : (forall i j, i < n -> j < n -> f i j = f' i j) -> regular n f -> regular n f'.
Proof.
  intros Hf HR v Hv. apply HR. intros i Hi. rewrite (mvec_ext n f f' v v); [apply Hv, Hi| |reflexivity]. intros; apply Hf; assumption.
Qed.
Lemma inv_both n f G : regular n f -> (forall i j, i < n -> j < n -> mmul n f G i j = idf i j) ->
  forall i j, i < n -> j < n -> mmul n G f i j = idf i j.
Proof.
  intros HR HG i j Hi Hj.
  assert (E : forall l, l < n -> mvec n f (fun i => mmul n G f i j - idf i j)%F l = f0).
  { intros l Hl. rewrite mvec_sub. change (mvec n f (fun i => mmul n G f i j) l) with (mmul n f (mmul n G f) l j).
    change (mvec n f (fun i => idf i j) l) with (mmul n f idf l j). rewrite (mmul_idr L) by exact Hj.
    rewrite <- (mmul_assoc L). rewrite (mmul_ext n _ idf f f); [|intros; apply HG; assumption|reflexivity].
    rewrite (mmul_idl L) by exact Hl. ring. }
  pose proof (HR _ E i Hi) as E0. cbv beta in E0.
  transitivity (mmul n G f i j - idf i j + idf i j)%F; [ring|]. rewrite E0. ring.
Qed.

(** ** Programs *)
Lemma wp_qrsolve (R W : addr -> Prop) A tau x F t b m (Q : unit -> mem K -> Prop) :
  let n := mrows A in let c := mcols A in
  mval m A F -> tval m tau c t -> c <= vdim tau -> c <= n -> vval m x b -> n <= vdim x ->
  disj (inm A) (inv x) -> disj (inv tau) (inv x) ->
  rdok R W (inm A) -> rdok R W (inv tau) -> wrok W (inv x) ->
  (forall i, i < c -> F i i <> f0) ->
  (forall y m', vval m' x y ->
     (forall i, i < c -> mvec c (up F) y i = mvec n (tr true (qmat n F t c)) b i) ->
     (forall i, c <= i -> i < n -> y i = mvec n (tr true (qmat n F t c)) b i) ->
     (forall i, n <= i -> i < vdim x -> y i = b i) ->
     keeps (inv x) m m' -> Q tt m') ->
  wp R W (qrsolve_amatrix_avector A tau x) m Q.
Proof.
  intros n c HA Ht Htc Hcn Hx Hn Hd Hdt HrA Hrt Hw HD HQ. unfold qrsolve_amatrix_avector. apply wp_bind.
  assert (Er : Nat.min (Nat.min (mrows A) (mcols A)) (vdim tau) = c) by (fold n c; lia).
  assert (Hrp : forall ok, rdok R W (inp A ok)) by (intros ok a Ha; apply HrA; eapply inp_inm; exact Ha).
  eapply (wp_qreval_vec L) with (F := F) (t := t) (g := b); try assumption.
  - apply mval_pval, HA.
  - rewrite Er. exact Ht.
  - apply disj_inp, Hd.
  - apply Hrp.
  - intros m1 Hv1 Hk1. rewrite Er in Hv1. fold n in Hv1.
    assert (Em : Nat.min (mrows A) (mcols A) = c) by (fold n c; lia).
    eapply (wp_triangularsolve_amatrix_avector L) with (f := F); [apply mval_pval; eapply mval_keeps; [exact HA|exact Hk1|exact Hd]|exact Hv1|apply disj_inp, Hd|apply Hrp|exact Hw|exact Hn|fold c; lia| |].
    + right. rewrite Em. exact HD.
    + intros y m2 Hy1 Hy2 Hv2 Hk2. rewrite Em in Hy1, Hy2. cbn [tr] in Hy1, Hy2. apply (HQ y).
      * exact Hv2.
      * intros i Hi. rewrite Hy1 by exact Hi. unfold hit. destruct (Nat.ltb_spec i n); [reflexivity|lia].
      * intros i Hi Hi'. rewrite Hy2 by lia. unfold hit. destruct (Nat.ltb_spec i n); [reflexivity|lia].
      * intros i Hi Hi'. rewrite Hy2 by lia. unfold hit. destruct (Nat.ltb_spec i n); [lia|reflexivity].
      * eapply keeps_trans; eauto.
Qed.

(** ** Inversion *)
Context (O : qops K) (H : qlaws O).

Lemma wp_qrinvert (R W : addr -> Prop) A f m (Q : unit -> mem K -> Prop) :
  let n := mrows A in
  mcols A = n -> mwf A -> mval m A f -> mblk A < next m -> wrok W (inm A) ->
  (forall E, (forall j, j < n -> tiny O (dot n (fun i => E i j) (fun i => E i j)) = true) ->
     regular n (fun i j => (f i j - E i j)%F)) ->
  (forall G E m', mval m' A G ->
     (forall j, j < n -> tiny O (dot n (fun i => E i j) (fun i => E i j)) = true) ->
     (forall i j, i < n -> j < n -> mmul n (fun i j => (f i j - E i j)%F) G i j = idf i j) ->
     keeps (inm A) m m' -> Q tt m') ->
  wp R W (qrinvert_amatrix O A) m Q.
Proof.
  intros n Hc Hwf HA Hb Hw Hreg HQ. unfold qrinvert_amatrix. wstep. fold n.
  unfold init_amatrix, init_avector. cbn [bind palloc wp].
  set (B := Mat (next m) 0 n n n true).
  set (m1 := alloc m (n * n)). change (next m1) with (S (next m)).
  set (tau := Vec (S (next m)) 0 n true). set (m2 := alloc m1 n).
  set (W' := fun a => (W a \/ fst a = next m) \/ fst a = S (next m)).
  assert (HwB : wrok W' (inm B)) by (intros a Ha; left; right; exact (inm_blk _ _ Ha)).
  assert (Hwt : wrok W' (inv tau)) by (intros a Ha; right; exact (inv_blk _ _ Ha)).
  assert (HwA : wrok W' (inm A)) by (intros a Ha; left; left; apply Hw, Ha).
  assert (HdAB : disj (inm A) (inm B)).
  { intros a Ha Hb'. apply inm_blk in Ha, Hb'. cbn in Hb'. lia. }
  assert (HdAt : disj (inm A) (inv tau)).
  { intros a Ha Hb'. apply inm_blk in Ha. apply inv_blk in Hb'. cbn in Hb'. lia. }
  assert (HdBt : disj (inm B) (inv tau)).
  { intros a Ha Hb'. apply inm_blk in Ha. apply inv_blk in Hb'. cbn in Hb', Ha. lia. }
  assert (HA2 : mval m2 A f).
  { intros i j Hi Hj. unfold m2, m1. rewrite !get_alloc_old; [apply HA; assumption|..]; cbn; lia. }
  assert (HB2 : malloc m2 B).
  { intros i j Hi Hj. unfold m2. rewrite get_alloc_old; [apply malloc_fresh; assumption|]. cbn. lia. }
  assert (Ht2 : valloc m2 tau) by (apply (valloc_fresh m1 n)).
  apply wp_bind. eapply (wp_copy_amatrix R W' false A B f m2); [apply mwf_fresh|exact HA2|exact HB2|exact HdAB|apply rdok_w, HwA|exact HwB|reflexivity|exact Hc|].
  intros m3 HB3 Hk3.
  assert (HA3 : mval m3 A f) by (eapply mval_keeps; [exact HA2|exact Hk3|exact HdAB]).
  assert (Ht3 : valloc m3 tau) by (eapply valloc_keeps; [exact Ht2|exact Hk3|apply disj_sym, HdBt]).
  apply wp_bind. eapply (wp_qrdecomp L O H R W' B tau f m3); [apply mwf_fresh|exact HB3|exact Ht3|cbn; lia|exact HdBt|exact HwB|exact Hwt|].
  cbn [mrows mcols B]. rewrite Nat.min_id.
  intros F t E m4 HI HF4 Htv4 Hk4.
  assert (Hk4' : keeps (fun a => inm B a \/ inv tau a) m3 m4).
  { eapply keeps_mono; [|exact Hk4]. intros a [Ha|(i & Hi & ->)]; [left; exact Ha|right; apply inv_va; exact Hi]. }
  assert (HdA : disj (inm A) (fun a => inm B a \/ inv tau a)).
  { intros a Ha [Hb'|Hb']; [eapply HdAB|eapply HdAt]; eauto. }
  assert (HA4 : mval m4 A f) by (eapply mval_keeps; [exact HA3|exact Hk4'|exact HdA]).
  destruct HI as (HI1 & HI2 & HI3 & HI4).
  assert (U : unitary n (qmat n F t n)) by (apply (qmat_unitary L); exact HI2).
  assert (HE : forall j, j < n -> tiny O (dot n (fun i => E i j) (fun i => E i j)) = true).
  { intros j Hj. destruct (HI4 j Hj) as [E0|E0].
    - etransitivity; [|apply (ql_tiny O H)]. f_equal. apply (sum_0 RL). intros i Hi. rewrite E0 by exact Hi. ring.
    - apply (ql_tmono O H _ (F j j)). etransitivity; [|exact E0]. f_equal. unfold dot, abssqr. ring. }
  assert (Hfac : forall i j, i < n -> j < n -> (f i j - E i j)%F = mmul n (qmat n F t n) (up F) i j).
  { intros i j Hi Hj. rewrite HI1 by assumption. rewrite (mmul_ext n _ (qmat n F t n) (up F) (Rk F n)); [ring|reflexivity|].
    intros l Hl. unfold tripart, Rk. bsplit; try lia; subst; try reflexivity; lia. }
  pose proof (Hreg E HE) as HregE.
  assert (HD : forall i, i < n -> F i i <> f0) by (eapply qr_diag; [exact Hfac|exact HregE]).
  apply wp_bind. eapply (wp_identity_amatrix R W' A); [exact Hwf|eapply mval_alloc, HA4|exact HwA|].
  intros m5 HA5 Hk5.
  assert (HF5 : mval m5 B F) by (eapply mval_keeps; [exact HF4|exact Hk5|apply disj_sym, HdAB]).
  assert (Ht5 : tval m5 tau n t).
  { intros k Hk. destruct Hk5 as [_ Hk5]. rewrite Hk5; [apply Htv4, Hk|]. apply (disj_mv HdAt). exact Hk. }
  apply wp_bind.
  set (fE := fun i j => (f i j - E i j)%F) in *.
  apply (wp_for (fun c m6 => (exists G, mval m6 A G /\ (forall i j, i < n -> c <= j -> j < n -> G i j = idf i j) /\
     (forall i j, i < n -> j < c -> j < n -> mmul n fE G i j = idf i j)) /\
     keeps (inm A) m5 m6)).
  { split; [|apply keeps_refl]. exists idf. split; [exact HA5|]. split; [reflexivity|intros; lia]. }
  { intros c m6 Hcn ((G & HG & HG1 & HG2) & Hk6).
    apply wp_bind. apply (wp_init_column_avector R W' A c); [lia|].
    assert (HinC : forall a, inv (colv A c) a -> inm A a) by (apply inv_colv; lia).
    apply wp_bind.
    eapply (wp_qrsolve R W' B tau (colv A c) F t (fun i => G i c) m6).
    - eapply mval_keeps; [exact HF5|exact Hk6|apply disj_sym, HdAB].
    - intros k Hk. destruct Hk6 as [_ Hk6]. rewrite Hk6; [apply Ht5, Hk|]. apply (disj_mv HdAt). exact Hk.
    - cbn. lia.
    - cbn. lia.
    - apply vval_colv; [exact HG|lia].
    - cbn. fold n. lia.
    - intros a Ha Hb'. eapply HdAB; [apply HinC, Hb'|exact Ha].
    - intros a Ha Hb'. eapply HdAt; [apply HinC, Hb'|exact Ha].
    - apply rdok_w, HwB.
    - apply rdok_w, Hwt.
    - intros a Ha. apply HwA, HinC, Ha.
    - exact HD.
    - cbn [mrows mcols B]. intros y m7 Hv7 Hy1 _ _ Hk7. unfold uninit_avector, colv. cbn [vown wp].
      split; [|eapply keeps_trans; [exact Hk6|eapply keeps_colv; [|exact Hk7]]; lia].
      exists (fun i j => if j =? c then y i else G i j).
      split; [eapply mval_colv_back; [exact Hwf|exact HG|lia|exact Hv7|exact Hk7]|]. split.
      + intros i j Hi Hj Hj'. destruct (Nat.eqb_spec j c); [lia|]. apply HG1; lia.
      + intros i j Hi Hj Hj'. destruct (Nat.eq_dec j c) as [->|Hne].
        * unfold mmul. rewrite Nat.eqb_refl. change (sum n (fun k => fE i k * y k)%F) with (mvec n fE y i).
          rewrite (lsq_square n _ F fE (fun i => G i c) y U Hfac Hy1 i Hi). apply HG1; lia.
        * rewrite (mmul_ext n fE fE _ G); [apply HG2; lia|reflexivity|].
          intros k Hk. destruct (Nat.eqb_spec j c); [contradiction|reflexivity]. }
  intros m6 ((G & HG & _ & HG2) & Hk6). unfold uninit_avector, uninit_amatrix. cbn [vown mown tau B bind pfree wp vblk mblk].
  assert (Hnx : S (S (next m)) <= next m6).
  { pose proof (proj1 Hk3). pose proof (proj1 Hk4'). pose proof (proj1 Hk5). pose proof (proj1 Hk6).
    unfold m2, m1 in *. cbn in *. lia. }
  split; [lia|]. split; [intros o; right; reflexivity|].
  split; [cbn; lia|]. split; [intros o; left; right; reflexivity|].
  apply (HQ G E).
  - intros i j Hi Hj. rewrite !get_dealloc. cbn [fst ma].
    destruct (Nat.eqb_spec (mblk A) (next m)); [lia|]. destruct (Nat.eqb_spec (mblk A) (S (next m))); [lia|]. apply HG; assumption.
  - exact HE.
  - intros i j Hi Hj. apply HG2; lia.
  - apply keeps_dealloc; [lia|]. apply keeps_dealloc; [lia|].
    assert (Hk : keeps (fun a => inm A a \/ inm B a \/ inv tau a) m2 m6).
    { eapply keeps_trans; [eapply keeps_mono; [|exact Hk3]; cbn; tauto|].
      eapply keeps_trans; [eapply keeps_mono; [|exact Hk4']; cbn; tauto|].
      eapply keeps_trans; [eapply keeps_mono; [|exact Hk5]; cbn; tauto|].
      eapply keeps_mono; [|exact Hk6]; cbn; tauto. }
    apply keeps_alloc, keeps_alloc in Hk. eapply keeps_mono; [|exact Hk]. cbv beta.
    intros a [[[Ha|[Ha|Ha]]|Ha]|Ha]; auto.
    + left. right. exact (inm_blk _ _ Ha).
    + right. exact (inv_blk _ _ Ha).
Qed.
End QRP9.
