(** * Property C22: QR decomposition *)
From Coq Require Import Arith NArith Lia List Bool ZArith Ring Permutation.
From Coq Require Rdefinitions R_sqrt Lra.
From Verif Require Import Fld Inst Prog View Spec Loop Line Avector AvectorP AmatrixP Factor FactorSpec FactorP LrP Chol CholSpec
  Qr QrSpec QrP QrP2 QrP4 QrP5 QrP6 QrP7 QrP8 QrP9 QrP10 OrdInst CholInst QrInst.
Import ListNotations.

(** [qmat n F t r] is the product of [r] reflections stored below the diagonal of [F] and
    scaled by [t]; [tripart false false F] is the upper triangular matrix stored in [F]. *)
Section C22.
Context {K : fops} (L : field_laws K) (O : qops K) (H : qlaws O).
Add Ring KringPQ : (rl_ring K (fl_ring K L)).
Implicit Types (m : mem K) (A X q : mat) (tau x : vec).
Notation up F := (tripart false false F).

(** [A = Q R + E] with unitary [Q] and columns of [E] that count as zero. *)
Theorem C22_qrdecomp_amatrix : forall A tau f m,
  let n := mrows A in let c := mcols A in let r := Nat.min n c in
  mwf A -> mval m A f -> valloc m tau -> disj (inm A) (inv tau) ->
  (vdim tau < r -> vown tau = true /\ vblk tau < next m /\ mblk A < next m /\ mblk A <> vblk tau) ->
  ends (qrdecomp_amatrix O A tau) m (fun tau' m' =>
    exists (F E : nat -> nat -> K) (t : nat -> K),
      mval m' A F /\ tval m' tau' r t /\ tauof r tau tau' m /\
      unitary n (qmat n F t r) /\
      (forall i j, i < n -> j < c -> f i j = (mmul n (qmat n F t r) (up F) i j + E i j)%F) /\
      (forall j, j < c -> tiny O (dot n (fun i => E i j) (fun i => E i j)) = true) /\
      keeps (qrchg A tau r m) m m').
Proof.
  intros A tau f m n c r Hwf HA Hal Hd Hs. apply wp_ends.
  apply (wp_qrdecomp_resize L O H A tau f); auto.
  intros tau' F t E m' Ht HI HF Htv Hk. exists F, E, t.
  destruct (qrinv_final L O H _ _ _ _ _ _ HI) as [U [HE1 HE2]].
  split; [exact HF|]. split; [exact Htv|]. split; [exact Ht|]. split; [exact U|]. split; [exact HE1|]. split; [exact HE2|exact Hk].
Qed.

(** If only zero counts as zero, the decomposition is exact. *)
Theorem C22_qrdecomp_exact : forall A tau f m,
  let n := mrows A in let c := mcols A in let r := Nat.min n c in
  (forall e : nat -> K, tiny O (dot n e e) = true -> forall i, i < n -> e i = f0) ->
  mwf A -> mval m A f -> valloc m tau -> disj (inm A) (inv tau) ->
  (vdim tau < r -> vown tau = true /\ vblk tau < next m /\ mblk A < next m /\ mblk A <> vblk tau) ->
  ends (qrdecomp_amatrix O A tau) m (fun tau' m' =>
    exists (F : nat -> nat -> K) (t : nat -> K),
      mval m' A F /\ tval m' tau' r t /\ tauof r tau tau' m /\
      unitary n (qmat n F t r) /\
      (forall i j, i < n -> j < c -> f i j = mmul n (qmat n F t r) (up F) i j) /\
      keeps (qrchg A tau r m) m m').
Proof.
  intros A tau f m n c r Hex Hwf HA Hal Hd Hs.
  destruct (C22_qrdecomp_amatrix A tau f m Hwf HA Hal Hd Hs) as [tau' [m' [Hrun [F [E [t [H1 [H2 [H3 [H4 [H5 [H6 H7]]]]]]]]]]]].
  exists tau', m'. split; [exact Hrun|]. exists F, t.
  split; [exact H1|]. split; [exact H2|]. split; [exact H3|]. split; [exact H4|]. split; [|exact H7].
  intros i j Hi Hj. fold n c r in H5. rewrite H5 by assumption.
  rewrite (Hex (fun i => E i j) (H6 j Hj) i Hi). ring.
Qed.

(** Column pivoting: [p] lists the columns of [A] in the order in which they are
    eliminated, and in each step the remaining part of the pivot column has maximal norm. *)
Theorem C22_qrdecomp_pivot_amatrix : forall A tau f m,
  let n := mrows A in let c := mcols A in let r := Nat.min n c in
  mwf A -> mval m A f -> valloc m tau -> disj (inm A) (inv tau) ->
  (vdim tau < r -> vown tau = true /\ vblk tau < next m /\ mblk A < next m /\ mblk A <> vblk tau) ->
  ends (qrdecomp_pivot_amatrix O A tau) m (fun res m' =>
    let '(tau', k, p) := res in
    exists (F E : nat -> nat -> K) (t : nat -> K),
      k = r /\ Permutation p (seq 0 c) /\
      mval m' A F /\ tval m' tau' r t /\ tauof r tau tau' m /\
      unitary n (qmat n F t r) /\
      (forall i j, i < n -> j < c -> f i (nth j p 0) = (mmul n (qmat n F t r) (up F) i j + E i j)%F) /\
      (forall j, j < c -> tiny O (dot n (fun i => E i j) (fun i => E i j)) = true) /\
      (forall l j, l < r -> l <= j -> j < c ->
         t l = f0 \/ gtb O (sum (n - l) (fun i => abssqr (up F (l + i)%nat j))) (abssqr (F l l)) = false) /\
      keeps (qrchg A tau r m) m m').
Proof.
  intros A tau f m n c r Hwf HA Hal Hd Hs. apply wp_ends.
  apply (wp_qrdecomp_pivot L O H A tau f); auto.
  intros tau' p F t E m1 m' Ht (HI & HP & HF & Htv & _ & _ & Hperm & _) Hk. exists F, E, t.
  destruct (qrinv_final L O H _ _ _ _ _ _ HI) as [U [HE1 HE2]].
  split; [reflexivity|]. split; [exact Hperm|]. split; [exact HF|]. split; [exact Htv|]. split; [exact Ht|].
  split; [exact U|]. split; [exact HE1|]. split; [exact HE2|]. split; [|exact Hk].
  apply pinv_final, HP.
Qed.

(** Truncation: the first [k] columns of [Q] and the first [k] rows of [R] approximate the
    matrix, and the error obeys the criterion that was asked for. *)
Theorem C22_qrdecomp_rank_amatrix : forall A tau tm (eps : K) f m,
  let n := mrows A in let c := mcols A in let r := Nat.min n c in
  mwf A -> mval m A f -> valloc m tau -> disj (inm A) (inv tau) ->
  (vdim tau < r -> vown tau = true /\ vblk tau < next m /\ mblk A < next m /\ mblk A <> vblk tau) ->
  ends (qrdecomp_rank_amatrix O A tau tm eps) m (fun res m' =>
    let '(tau', k, p) := res in
    exists (F Err : nat -> nat -> K) (t : nat -> K),
      k <= r /\ vdim tau' = k /\ Permutation p (seq 0 c) /\
      mval m' A F /\ tval m' tau' k t /\
      unitary n (qmat n F t k) /\
      (forall i j, i < n -> j < c ->
         f i (nth j p 0) = (sum k (fun l => qmat n F t k i l * up F l j) + Err i j)%F) /\
      (fro2 n c Err = f0 \/
       if absmode tm then gtb O (fro2 n c Err) (eps * eps)%F = false
       else 0 < k /\ exists x : K, firstnorm O n c tm f x /\ gtb O (fro2 n c Err) (eps * eps * x)%F = false) /\
      (forall l j, l < k -> l <= j -> j < c ->
         t l = f0 \/ gtb O (abssqr (F l j)) (abssqr (F l l)) = false) /\
      keeps (qrchg A tau r m) m m').
Proof.
  intros A tau tm eps f m n c r Hwf HA Hal Hd Hs. apply wp_ends.
  apply (wp_qrdecomp_rank L O H A tau tm eps f); auto.
  fold n c r. intros tau' k p F t m1 m' Ht Hkr (HI & HP & HF & Htv & _ & _ & Hperm & _) Hst Hk.
  fold n c in HI, HP, Hperm.
  assert (Hkn : k <= n) by (unfold r in Hkr; lia). assert (Hkc : k <= c) by (unfold r in Hkr; lia).
  destruct (qrinv_approx L O H n c k _ F t _ HI Hkn Hkc) as [Err [HE1 HE2]].
  exists F, Err, t. split; [exact Hkr|]. split; [reflexivity|]. split; [exact Hperm|]. split; [exact HF|].
  split; [exact Htv|]. split; [apply (qmat_unitary L); apply HI|]. split; [|split; [|split]].
  - intros i j Hi Hj. rewrite HE1 by assumption. f_equal. apply sum_ext. intros l Hl. f_equal.
    unfold tripart. bsplit; try lia; subst; try reflexivity; lia.
  - rewrite HE2. destruct Hst as [->|Hst]; [left; apply (rest_full L)|right; exact Hst].
  - intros l j Hl Hlj Hj. destruct (HP l j Hl Hlj Hj) as [Z|G]; [left; exact Z|right].
    rewrite (csum_S L) in G by lia.
    assert (E : Rk F k l j = F l j) by (unfold Rk; bsplit; try lia; reflexivity). rewrite E in G.
    eapply (gtb_ssq L O H); [|exact G]. apply csum_ssq.
  - exact Hk.
Qed.

(** Applying the unitary factor or its adjoint. *)
Theorem C22_qreval_amatrix_avector : forall (qtrans : bool) A tau x F t (g : nat -> K) m,
  let n := mrows A in
  let r := Nat.min (Nat.min n (mcols A)) (vdim tau) in
  pval m A below F -> tval m tau r t -> vval m x g -> n <= vdim x ->
  disj (inp A below) (inv x) -> disj (inv tau) (inv x) ->
  ends (qreval_amatrix_avector qtrans A tau x) m (fun _ m' =>
    vval m' x (hit n (tr qtrans (qmat n F t r)) g) /\ keeps (inv x) m m').
Proof.
  intros qtrans A tau x F t g m n r HA Ht Hx Hn Hd Hd2. apply wp_ends.
  eapply (wp_qreval_vec L); unfold rdok, wrok; eauto 10.
Qed.

Theorem C22_qreval_amatrix : forall (qtrans : bool) A tau X F t (g : nat -> nat -> K) m,
  let n := mrows A in
  let r := Nat.min (Nat.min n (mcols A)) (vdim tau) in
  mwf X -> pval m A below F -> tval m tau r t -> mval m X g -> n <= mrows X ->
  disj (inp A below) (inm X) -> disj (inv tau) (inm X) ->
  ends (qreval_amatrix qtrans A tau X) m (fun _ m' =>
    mval m' X (hitm n (tr qtrans (qmat n F t r)) g) /\ keeps (inm X) m m').
Proof.
  intros qtrans A tau X F t g m n r HW HA Ht Hx Hn Hd Hd2. apply wp_ends.
  eapply (wp_qreval_mat L); unfold rdok, wrok; eauto 10.
Qed.

(** Applying the factor and its adjoint, in any order, restores the vector. *)
Theorem C22_qreval_inverse : forall (qtrans : bool) A tau x F t (g : nat -> K) m,
  let n := mrows A in
  let r := Nat.min (Nat.min n (mcols A)) (vdim tau) in
  unitary n (qmat n F t r) ->
  pval m A below F -> tval m tau r t -> vval m x g -> n <= vdim x ->
  disj (inp A below) (inv x) -> disj (inv tau) (inv x) ->
  ends (qreval_amatrix_avector qtrans A tau x ;;; qreval_amatrix_avector (negb qtrans) A tau x) m (fun _ m' =>
    vval m' x g /\ keeps (inv x) m m').
Proof.
  intros qtrans A tau x F t g m n r U HA Ht Hx Hn Hd Hd2. apply wp_ends. apply wp_bind.
  eapply (wp_qreval_vec L); unfold rdok, wrok; eauto. intros m1 Hx1 Hk1.
  eapply (wp_qreval_vec L) with (F := F) (t := t); unfold rdok, wrok; eauto.
  { intros i j Hi Hj Hb. destruct Hk1 as [_ Hk1]. rewrite Hk1; [apply HA; assumption|].
    intros Ha. eapply Hd; [|exact Ha]. exists i, j. auto. }
  { intros k Hk. destruct Hk1 as [_ Hk1]. rewrite Hk1; [apply Ht, Hk|].
    intros Ha. eapply Hd2; [|exact Ha]. apply inv_va. lia. }
  intros m2 Hx2 Hk2. split; [|eapply keeps_trans; eassumption].
  intros i Hi. rewrite Hx2 by exact Hi. f_equal. unfold hit. fold n r.
  destruct (Nat.ltb_spec i n) as [Hin|Hin]; [|reflexivity].
  set (Qm := qmat n F t r) in *.
  transitivity (mvec n (tr (negb qtrans) Qm) (mvec n (tr qtrans Qm) g) i).
  { apply mvec_ext; [reflexivity|]. intros j Hj. destruct (Nat.ltb_spec j n); [reflexivity|lia]. }
  destruct qtrans; cbn [negb].
  - apply (unitary_cancel' L n Qm g i U Hin).
  - apply (unitary_cancel L n Qm g i U Hin).
Qed.

(** The factor and its adjoint preserve inner products, hence norms. *)
Theorem C22_qreval_dot : forall (qtrans : bool) A tau x y F t (g h : nat -> K) m,
  let n := mrows A in
  let r := Nat.min (Nat.min n (mcols A)) (vdim tau) in
  unitary n (qmat n F t r) ->
  pval m A below F -> tval m tau r t -> vval m x g -> vval m y h -> vdim x = n -> vdim y = n ->
  disj (inp A below) (inv x) -> disj (inv tau) (inv x) ->
  disj (inp A below) (inv y) -> disj (inv tau) (inv y) -> disj (inv x) (inv y) ->
  ends (qreval_amatrix_avector qtrans A tau x ;;; qreval_amatrix_avector qtrans A tau y) m (fun _ m' =>
    exists g' h' : nat -> K, vval m' x g' /\ vval m' y h' /\ dot n g' h' = dot n g h).
Proof.
  intros qtrans A tau x y F t g h m n r U HA Ht Hx Hy Hn Hny Hd Hd2 Hdy Hdy2 Hxy. apply wp_ends. apply wp_bind.
  eapply (wp_qreval_vec L); unfold rdok, wrok; eauto; [lia|]. intros m1 Hx1 Hk1.
  eapply (wp_qreval_vec L) with (F := F) (t := t) (g := h); unfold rdok, wrok; eauto.
  { intros i j Hi Hj Hb. destruct Hk1 as [_ Hk1]. rewrite Hk1; [apply HA; assumption|].
    intros Ha. eapply Hd; [|exact Ha]. exists i, j. auto. }
  { intros k Hk. destruct Hk1 as [_ Hk1]. rewrite Hk1; [apply Ht, Hk|].
    intros Ha. eapply Hd2; [|exact Ha]. apply inv_va. lia. }
  { eapply vval_keeps; [exact Hy|exact Hk1|]. intros a Ha Ha'. exact (Hxy a Ha' Ha). }
  { lia. }
  intros m2 Hy2 Hk2. eexists _, _. split; [eapply vval_keeps; [exact Hx1|exact Hk2|exact Hxy]|]. split; [exact Hy2|].
  fold n r. set (Qm := tr qtrans (qmat n F t r)).
  assert (U' : unitary n Qm) by (unfold Qm; destruct qtrans; [apply (unitary_tr L)|]; exact U).
  transitivity (dot n (mvec n Qm g) (mvec n Qm h)); [|apply (unitary_dot L), U'].
  apply dot_ext'; intros i Hi; unfold hit; (destruct (Nat.ltb_spec i n); [reflexivity|lia]).
Qed.

(** Expanding the factor: the rows of [q] up to the number of rows of [A] contain its first
    columns, and they are orthonormal. *)
Theorem C22_qrexpand_amatrix : forall A tau q F t m,
  let n := mrows A in
  let r := Nat.min (Nat.min n (mcols A)) (vdim tau) in
  mwf q -> malloc m q -> pval m A below F -> tval m tau r t -> n <= mrows q -> mcols q <= n ->
  disj (inp A below) (inm q) -> disj (inv tau) (inm q) ->
  ends (qrexpand_amatrix A tau q) m (fun _ m' =>
    (forall i j, i < n -> j < mcols q -> get m' (ma q i j) = Val (qmat n F t r i j)) /\
    (unitary n (qmat n F t r) -> forall j l, j < mcols q -> l < mcols q ->
       dot n (fun i => qmat n F t r i j) (fun i => qmat n F t r i l) = idf j l) /\
    (forall i j, n <= i -> i < mrows q -> j < mcols q -> get m' (ma q i j) = get m (ma q i j)) /\
    keeps (inm q) m m').
Proof.
  intros A tau q F t m n r HW Hq HA Ht Hn Hc Hd Hd2. apply wp_ends.
  eapply (wp_qrexpand L); unfold rdok, wrok; eauto. intros m' Hq' Hk.
  split; [|split; [|split]].
  - intros i j Hi Hj. apply (Hq' i j); assumption.
  - intros U j l Hj Hl. destruct (U j l) as [U1 _]; [lia|lia|]. rewrite <- U1. reflexivity.
  - intros i j Hi Hi' Hj. destruct Hk as [_ Hk]. apply Hk. intros (i1 & j1 & H1 & H2 & E). cbn in H1, H2. fold n in H1.
    change (ma (sel q n) i1 j1) with (ma q i1 j1) in E.
    destruct (ma_inj q i j i1 j1 HW) as [-> _]; try lia; exact E.
  - eapply keeps_mono; [|exact Hk]. intros a (i1 & j1 & H1 & H2 & ->). cbn in H1, H2. fold n in H1.
    exists i1, j1. cbn. repeat split; try lia; assumption.
Qed.

(** Solving: a least-squares solution for the matrix represented by the decomposition. *)
Theorem C22_qrsolve_amatrix_avector : forall A tau x F t (g : nat -> nat -> K) (b : nat -> K) m,
  let n := mrows A in let c := mcols A in
  mval m A F -> tval m tau c t -> c <= vdim tau -> c <= n -> vval m x b -> n <= vdim x ->
  disj (inm A) (inv x) -> disj (inv tau) (inv x) ->
  unitary n (qmat n F t c) ->
  (forall i j, i < n -> j < c -> g i j = mmul n (qmat n F t c) (up F) i j) ->
  fullrank n c g ->
  ends (qrsolve_amatrix_avector A tau x) m (fun _ m' =>
    exists y : nat -> K, vval m' x y /\
      (forall j, j < c -> dot n (fun i => g i j) (fun i => mvec c g y i - b i)%F = f0) /\
      (forall z : nat -> K,
         dot n (fun i => mvec c g z i - b i)%F (fun i => mvec c g z i - b i)%F =
         (dot n (fun i => mvec c g y i - b i)%F (fun i => mvec c g y i - b i)%F
          + dot n (mvec c g (fun j => z j - y j)%F) (mvec c g (fun j => z j - y j)%F))%F) /\
      (n = c -> forall i, i < n -> mvec n g y i = b i) /\
      (forall i, n <= i -> i < vdim x -> y i = b i) /\ keeps (inv x) m m').
Proof.
  intros A tau x F t g b m n c HA Ht Hct Hcn Hx Hn Hd Hd2 U Hf HR. apply wp_ends.
  pose proof (qr_diag_rect L n c _ F g Hcn Hf HR) as HD.
  eapply (wp_qrsolve L); unfold rdok, wrok; eauto.
  fold n c. intros y m' Hy H1 H2 H3 Hk. exists y. split; [exact Hy|].
  split; [eapply (normal_equations L); eassumption|]. split; [|split; [|split; [exact H3|exact Hk]]].
  - intros z. pose proof (least_squares L n c _ F g b y U Hcn Hf H1 H2) as LS. rewrite (LS z), (LS y).
    assert (Z : dot n (mvec c g (fun j => (y j - y j)%F)) (mvec c g (fun j => (y j - y j)%F)) = f0).
    { apply (sum_0 (fl_ring K L)). intros i Hi.
      assert (E : mvec c g (fun j => (y j - y j)%F) i = f0); [|rewrite E; ring].
      apply (sum_0 (fl_ring K L)). intros j Hj. ring. }
    rewrite Z. ring.
  - intros E. rewrite <- E in *. eapply (lsq_square L); eassumption.
Qed.

(** Decomposition and solver together: the least-squares problem for a matrix that differs
    from [A] by columns that count as zero. *)
Theorem C22_qr_solve : forall A tau x f (b : nat -> K) m,
  let n := mrows A in let c := mcols A in
  mwf A -> mval m A f -> valloc m tau -> c <= vdim tau -> c <= n -> vval m x b -> n <= vdim x ->
  disj (inm A) (inv tau) -> disj (inm A) (inv x) -> disj (inv tau) (inv x) ->
  (forall E : nat -> nat -> K, (forall j, j < c -> tiny O (dot n (fun i => E i j) (fun i => E i j)) = true) ->
     fullrank n c (fun i j => f i j - E i j)%F) ->
  ends (tau' <- qrdecomp_amatrix O A tau ;; qrsolve_amatrix_avector A tau' x) m (fun _ m' =>
    exists (y : nat -> K) (E : nat -> nat -> K), vval m' x y /\
      (forall j, j < c -> tiny O (dot n (fun i => E i j) (fun i => E i j)) = true) /\
      (let g := (fun i j => f i j - E i j)%F in
       (forall j, j < c -> dot n (fun i => g i j) (fun i => mvec c g y i - b i)%F = f0) /\
       (n = c -> forall i, i < n -> mvec n g y i = b i)) /\
      keeps (fun a => inm A a \/ inv tau a \/ inv x a) m m').
Proof.
  intros A tau x f b m n c HW HA Hal Hct Hcn Hx Hn Hd Hd1 Hd2 HR. apply wp_ends. apply wp_bind.
  assert (Er : Nat.min n c = c) by lia.
  apply (wp_qrdecomp L O H _ _ A tau f); auto; [fold n c; lia|intros a _; exact I|intros a _; exact I|].
  fold n c. rewrite Er. intros F t E m1 HI HF Htv Hk1.
  assert (HI' : qrinv (tiny O) n c (Nat.min n c) f F t E) by (rewrite Er; exact HI).
  destruct (qrinv_final L O H _ _ _ _ _ _ HI') as [U [HE1 HE2]]. rewrite Er in U, HE1.
  assert (Hk1' : keeps (fun a => inm A a \/ inv tau a) m m1).
  { eapply keeps_mono; [|exact Hk1]. intros a [Ha|(i & Hi & ->)]; [left; exact Ha|right; apply inv_va; lia]. }
  assert (Hx1 : vval m1 x b).
  { eapply vval_keeps; [exact Hx|exact Hk1'|]. intros a Ha [Hb|Hb]; [exact (Hd1 a Hb Ha)|exact (Hd2 a Hb Ha)]. }
  specialize (HR E HE2). set (g := fun i j => (f i j - E i j)%F) in *.
  assert (Hg : forall i j, i < n -> j < c -> g i j = mmul n (qmat n F t c) (up F) i j).
  { intros i j Hi Hj. unfold g. rewrite HE1 by assumption. ring. }
  pose proof (qr_diag_rect L n c _ F g Hcn Hg HR) as HD.
  eapply (wp_qrsolve L) with (F := F) (t := t); unfold rdok, wrok; eauto.
  fold n c. intros y m2 Hy H1 H2 H3 Hk2. exists y, E. split; [exact Hy|]. split; [exact HE2|]. split; [split|].
  - eapply (normal_equations L); eassumption.
  - intros Enc. rewrite <- Enc in *. eapply (lsq_square L); eassumption.
  - eapply keeps_trans; (eapply keeps_mono; [|eassumption]); cbn; tauto.
Qed.

(** Inversion. *)
Theorem C22_qrinvert_amatrix : forall A f m,
  let n := mrows A in
  mcols A = n -> mwf A -> mval m A f -> mblk A < next m ->
  (forall E : nat -> nat -> K, (forall j, j < n -> tiny O (dot n (fun i => E i j) (fun i => E i j)) = true) ->
     regular n (fun i j => (f i j - E i j)%F)) ->
  ends (qrinvert_amatrix O A) m (fun _ m' =>
    exists G E : nat -> nat -> K, mval m' A G /\
     (forall j, j < n -> tiny O (dot n (fun i => E i j) (fun i => E i j)) = true) /\
     (forall i j, i < n -> j < n ->
        mmul n (fun i j => (f i j - E i j)%F) G i j = idf i j /\
        mmul n G (fun i j => (f i j - E i j)%F) i j = idf i j) /\
     keeps (inm A) m m').
Proof.
  intros A f m n Hc HW HA Hb HR. apply wp_ends. apply (wp_qrinvert L O H _ _ A f); auto.
  { intros a _. exact I. }
  intros G E m' HG HE HI Hk. exists G, E. split; [exact HG|]. split; [exact HE|]. split; [|exact Hk].
  intros i j Hi Hj. split; [apply HI; assumption|]. apply (inv_both L); [apply HR, HE|exact HI|exact Hi|exact Hj].
Qed.

Theorem C22_not_square : forall A m, mrows A <> mcols A -> fails (qrinvert_amatrix O A) m EAssert.
Proof.
  intros A m Hn. unfold fails, qrinvert_amatrix, passert.
  destruct (Nat.eqb_spec (mrows A) (mcols A)) as [E|_]; [contradiction|reflexivity].
Qed.
End C22.

(** ** Columns that count as zero are not eliminated *)

(** The column [(0, 10^-160)]: the decomposition represents the matrix 0. *)
Definition smA : mat := Mat 0 0 2 2 1 true.
Definition smT : vec := Vec 1 0 1 true.
Definition smb : list (list Rf) := [[Rdefinitions.IZR 0; smallR]; [Rdefinitions.IZR 0]].

Theorem C22_small_column_refuted : exists A tau (f : nat -> nat -> Rf) m,
  mwf A /\ mval m A f /\ valloc m tau /\ disj (inm A) (inv tau) /\ Nat.min (mrows A) (mcols A) <= vdim tau /\
  ends (qrdecomp_amatrix (Rq almost_zero) A tau) m (fun tau' m' =>
    exists (F : nat -> nat -> Rf) (t : nat -> Rf), mval m' A F /\ tval m' tau' (Nat.min (mrows A) (mcols A)) t /\
    exists i j, i < mrows A /\ j < mcols A /\
      mmul (mrows A) (qmat (mrows A) F t (Nat.min (mrows A) (mcols A))) (tripart false false F) i j <> f i j).
Proof.
  exists smA, smT, (mof smb smA), (mem_of smb).
  split; [unfold mwf; cbn; lia|]. split; [|split; [|split; [|split]]].
  - intros i j Hi Hj. cbn in Hi, Hj.
    do 2 (destruct i as [|i]; [do 1 (destruct j as [|j]; [reflexivity|]); lia|]). lia.
  - intros i Hi. cbn in Hi. destruct i as [|i]; [discriminate|lia].
  - apply disj_mv_blk. discriminate.
  - cbn. lia.
  - apply wp_ends. unfold qrdecomp_amatrix, qr_tau. change (vdim smT <? Nat.min (mrows smA) (mcols smA)) with false.
    cbv iota. cbn [bind]. apply wp_bind. change (Nat.min (mrows smA) (mcols smA)) with 1. cbn [for_]. 
    apply wp_bind. apply wp_bind. unfold col_norm2. cbn -[tiny qmat mmul tripart mval tval].
    split; [left; exact I|]. exists (Rdefinitions.IZR 0). split; [reflexivity|].
    split; [left; exact I|]. exists smallR. split; [reflexivity|].
    rewrite small_tiny. split; [exact I|]. split; [discriminate|].
    cbn -[tiny qmat mmul tripart mval tval].
    exists (mof smb smA), (fun _ => @f0 Rf). split; [|split].
    + intros i j Hi Hj. cbn in Hi, Hj.
      do 2 (destruct i as [|i]; [do 1 (destruct j as [|j]; [reflexivity|]); lia|]). lia.
    + intros k Hk. destruct k as [|k]; [reflexivity|lia].
    + exists 1, 0. split; [lia|]. split; [lia|].
      assert (E : mmul 2 (qmat 2 (mof smb smA) (fun _ => @f0 Rf) 1) (tripart false false (mof smb smA)) 1 0 = @f0 Rf).
      { apply (sum_0 (fl_ring Rf Rf_field)). intros k Hk.
        assert (Z : tripart false false (mof smb smA) k 0 = @f0 Rf) by (destruct k as [|[|k]]; [reflexivity|reflexivity|lia]).
        rewrite Z. apply RIneq.Rmult_0_r. }
      rewrite E. change (mof smb smA 1 0) with smallR. pose proof smallR_pos. intros E'. cbn in E'. rewrite <- E' in *.
      Lra.lra.
Qed.

(** ** Examples *)

(** The real matrix [[1 2; 0 3; 2 4]] and a vector that is too short. *)
Definition qrR : list (list Rf) := [map Rdefinitions.IZR [1; 0; 2; 2; 3; 4]%Z; map Rdefinitions.IZR [0]%Z; map Rdefinitions.IZR [1; 1; 1]%Z].
Definition qrA : mat := Mat 0 0 3 3 2 true.
Definition qrT : vec := Vec 1 0 1 true.
Definition qrX : vec := Vec 2 0 3 true.
Example C22_hyps_real :
  field_laws Rf /\ qlaws (Rq almost_zero) /\ qlaws (Rq (Rdefinitions.IZR 0)) /\
  (forall n (e : nat -> Rf), tiny (Rq (Rdefinitions.IZR 0)) (dot n e e) = true -> forall i, i < n -> e i = f0) /\
  mwf qrA /\ mval (mem_of qrR) qrA (mof qrR qrA) /\ valloc (mem_of qrR) qrT /\ disj (inm qrA) (inv qrT) /\
  vdim qrT < Nat.min (mrows qrA) (mcols qrA) /\ vown qrT = true /\ vblk qrT < next (mem_of qrR) /\
  mblk qrA < next (mem_of qrR) /\ mblk qrA <> vblk qrT /\
  vval (mem_of qrR) qrX (vof qrR qrX) /\ disj (inm qrA) (inv qrX) /\ disj (inv qrT) (inv qrX).
Proof.
  split; [exact Rf_field|]. split; [apply Rq_laws; pose proof almost_zero_pos; Lra.lra|]. split; [apply Rq_laws; Lra.lra|].
  split; [exact (rw_sumsq Rr Rr_laws)|].
  split; [unfold mwf; cbn; lia|]. split; [|split; [|split; [|split; [cbn; lia|split; [reflexivity|split; [cbn; lia|split; [cbn; lia|split; [discriminate|split; [|split]]]]]]]]].
  - intros i j Hi Hj. cbn in Hi, Hj.
    do 3 (destruct i as [|i]; [do 2 (destruct j as [|j]; [reflexivity|]); lia|]). lia.
  - intros i Hi. cbn in Hi. destruct i as [|i]; [discriminate|lia].
  - apply disj_mv_blk. discriminate.
  - intros i Hi. cbn in Hi. do 3 (destruct i as [|i]; [reflexivity|]). lia.
  - apply disj_mv_blk. discriminate.
  - apply disj_vv_blk. discriminate.
Qed.

(** All matrices that differ from the identity by columns that count as zero are regular. *)
Example C22_hyps_regular : forall E : nat -> nat -> Rf,
  (forall j, j < 2 -> tiny (Rq almost_zero) (dot 2 (fun i => E i j) (fun i => E i j)) = true) ->
  regular 2 (fun i j => idf i j - E i j)%F /\ fullrank 2 2 (fun i j => idf i j - E i j)%F.
Proof.
  intros E HE.
  assert (HR : regular 2 (fun i j => idf i j - E i j)%F); [|split; exact HR].
  intros v Hv i Hi. pose proof (Hv 0 ltac:(lia)) as H0. pose proof (Hv 1 ltac:(lia)) as H1.
  pose proof (HE 0 ltac:(lia)) as E0. pose proof (HE 1 ltac:(lia)) as E1. cbn in H0, H1, E0, E1.
  change (@idf Rf 0 0) with (Rdefinitions.IZR 1) in H0. change (@idf Rf 0 1) with (Rdefinitions.IZR 0) in H0.
  change (@idf Rf 1 0) with (Rdefinitions.IZR 0) in H1. change (@idf Rf 1 1) with (Rdefinitions.IZR 1) in H1.
  apply negb_true_iff, R_ltb_false in E0, E1.
  destruct (near_identity (E 0 0) (E 0 1) (E 1 0) (E 1 1) (v 0) (v 1)) as [Z0 Z1].
  { cbn. pose proof almost_zero_100. Lra.lra. } { cbn. pose proof almost_zero_100. Lra.lra. }
  { cbn. Lra.lra. } { cbn. Lra.lra. }
  destruct i as [|[|i]]; [exact Z0|exact Z1|lia].
Qed.

Definition qrC : list (list Cf) :=
  [map (fun p => (Rdefinitions.IZR (fst p), Rdefinitions.IZR (snd p))) [(1, 1); (0, 2); (3, 0); (0, 0)]%Z;
   map (fun p => (Rdefinitions.IZR (fst p), Rdefinitions.IZR (snd p))) [(0, 0); (0, 0)]%Z].
Example C22_hyps_complex :
  field_laws Cf /\ qlaws (Cq almost_zero) /\
  mwf (Mat 0 0 2 2 2 true) /\ mval (mem_of qrC) (Mat 0 0 2 2 2 true) (mof qrC (Mat 0 0 2 2 2 true)) /\
  valloc (mem_of qrC) (Vec 1 0 2 true) /\ disj (inm (Mat 0 0 2 2 2 true)) (inv (Vec 1 0 2 true)).
Proof.
  split; [exact Cf_field|]. split; [apply Cq_laws; pose proof almost_zero_pos; Lra.lra|].
  split; [unfold mwf; cbn; lia|]. split; [|split].
  - intros i j Hi Hj. cbn in Hi, Hj.
    do 2 (destruct i as [|i]; [do 2 (destruct j as [|j]; [reflexivity|]); lia|]). lia.
  - intros i Hi. cbn in Hi. do 2 (destruct i as [|i]; [discriminate|]). lia.
  - apply disj_mv_blk. discriminate.
Qed.

Print Assumptions C22_qrdecomp_amatrix.
Print Assumptions C22_qrdecomp_exact.
Print Assumptions C22_qrdecomp_pivot_amatrix.
Print Assumptions C22_qrdecomp_rank_amatrix.
Print Assumptions C22_qreval_amatrix_avector.
Print Assumptions C22_qreval_amatrix.
Print Assumptions C22_qreval_inverse.
Print Assumptions C22_qreval_dot.
Print Assumptions C22_qrexpand_amatrix.
Print Assumptions C22_qrsolve_amatrix_avector.
Print Assumptions C22_qr_solve.
Print Assumptions C22_qrinvert_amatrix.
Print Assumptions C22_not_square.
Print Assumptions C22_small_column_refuted.
Print Assumptions C22_hyps_real.
Print Assumptions C22_hyps_regular.
Print Assumptions C22_hyps_complex.
