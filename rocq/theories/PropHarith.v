(** * Property C50: triangular systems, solvers and products of H-matrices with vectors and dense matrices *)
From Coq Require Import Arith Lia List Bool ZArith Ring.
From Verif Require Import Fld Inst Ord OrdInst Prog Arr View Spec Loop FactorSpec Cluster Block BlockP Avector AvectorP Amatrix AmatrixP AmatrixP2 Norm NormP
  Factor FactorP FactorP2 LrP3 Rkmatrix RkSpec RkP Hmatrix HmSpec HmP HmP2 HmP3 PropHm Harith HaSpec HaP HaP2 HaP3 HaP4.
Import ListNotations.

Section C50.
Context {K : fops} {G : ofops} (Lf : field_laws K).
Let L := fl_ring K Lf.
Add Ring KringC50 : (rl_ring K L).
Implicit Types (m : mem K) (h a : hmatrix G) (x y z : mat) (D A f g : nat -> nat -> K) (b : nat -> K).

Let allr : forall P, rdok (fun _ => True) (fun _ => True) P := fun P c _ => or_introl I.
Let allw : forall P, wrok (fun _ => True) P := fun P c _ => I.

Lemma tval_mval (t : bool) m x f : mval m x f -> tval t m x (tr t f).
Proof. intros Hx. eapply mval_ext; [exact Hx|]. intros i j Hi Hj. symmetry. apply (tr_tr L). Qed.

(** op(z) <- op(z) + alpha op(r) op(y), where every matrix can be replaced by its adjoint. *)
Theorem C50_addmul_rkmatrix_amatrix : forall alpha (rt : bool) (r : rkm) (yt : bool) y (zt : bool) z D f g m,
  mwf z -> rkrep m r D -> mval m y f -> mval m z g -> disj (inrk r) (inm z) -> disj (inm y) (inm z) ->
  trows zt z = mrows (if rt then rk_B r else rk_A r) -> trows yt y = mrows (if rt then rk_A r else rk_B r) -> tcols yt y = tcols zt z ->
  ends (addmul_rkmatrix_amatrix_amatrix alpha rt r yt y zt z) m (fun _ m' =>
    (exists g', mval m' z g' /\ forall i j, i < trows zt z -> j < tcols zt z ->
       tr zt g' i j = tr zt g i j + alpha * sum (trows yt y) (fun q => tr rt D i q * tr yt f q j))%F /\ keeps (inm z) m m').
Proof.
  intros alpha rt r yt y zt z D f g m Hw Hr Hy Hz D1 D2 E1 E2 E3. apply wp_ends.
  eapply (wp_addmul_rk L _ _ alpha rt r yt y zt z D (tr yt f) (tr zt g)); try assumption; try (apply tval_mval; assumption); try apply allr; try apply allw.
  intros m' Hz' Hk'. split; [|exact Hk']. eexists. split; [exact Hz'|]. intros i j Hi Hj. apply (tr_tr L).
Qed.

Theorem C50_addmul_hmatrix_amatrix : forall alpha (ht : bool) h (yt : bool) y (zt : bool) z D f g m,
  mwf z -> hrep m h D -> mval m y f -> mval m z g -> disj (inh h) (inm z) -> disj (inm y) (inm z) ->
  trows zt z = (if ht then hcols h else hrows h) -> trows yt y = (if ht then hrows h else hcols h) -> tcols yt y = tcols zt z ->
  ends (addmul_hmatrix_amatrix_amatrix alpha ht h yt y zt z) m (fun _ m' =>
    (exists g', mval m' z g' /\ forall i j, i < trows zt z -> j < tcols zt z ->
       tr zt g' i j = tr zt g i j + alpha * sum (trows yt y) (fun q => tr ht D i q * tr yt f q j))%F /\ keeps (inm z) m m').
Proof.
  intros alpha ht h yt y zt z D f g m Hw Hr Hy Hz D1 D2 E1 E2 E3. apply wp_ends.
  eapply (wp_addmul_h L h _ _ alpha ht yt y zt z D (tr yt f) (tr zt g)); try assumption; try (apply tval_mval; assumption); try apply allr; try apply allw.
  intros m' Hz' Hk'. split; [|exact Hk']. eexists. split; [exact Hz'|]. intros i j Hi Hj. apply (tr_tr L).
Qed.

(** Triangular systems: after the call, [op(T) x' = x] for the triangle [T] stored in the H-matrix. *)
Theorem C50_triangularinvmul_hmatrix_avector : forall (lower aunit t : bool) a (x : vec) D b m,
  htri lower aunit m a D -> vval m x b -> vdim x = hrows a -> disj (inh a) (inv x) ->
  (aunit = true \/ forall i, i < hrows a -> D i i <> f0) ->
  ends (triangularinvmul_hmatrix_avector lower aunit t a x) m (fun _ m' =>
    (exists x' : nat -> K, vval m' x x' /\ forall i, i < hrows a -> sum (hrows a) (fun j => tr t (tripart lower aunit D) i j * x' j)%F = b i) /\
    keeps (inv x) m m').
Proof.
  intros lower aunit t a x D b m Ha Hx Ex Dx Hd. apply wp_ends.
  assert (E : triangularinvmul_hmatrix_avector (K := K) lower aunit t a x = trisolve vrhs lower aunit t a x) by (destruct lower; reflexivity).
  rewrite E. eapply (wp_trisolve L vrhs (vlaws Lf) lower aunit t a _ _ x D (fun p _ => b p)); try assumption; try exact I; try apply allr; try apply allw.
  intros F' m' Hs Hx' Hk'. split; [|exact Hk']. exists (fun p => F' p 0). split; [exact Hx'|]. intros i Hi. apply (Hs i 0 Hi). cbn. lia.
Qed.

Theorem C50_triangularmul_hmatrix_avector : forall (lower aunit t : bool) a (x : vec) D b m,
  htri lower aunit m a D -> vval m x b -> vdim x = hrows a -> disj (inh a) (inv x) ->
  ends (triangularmul_hmatrix_avector lower aunit t a x) m (fun _ m' =>
    vval m' x (fun i => sum (hrows a) (fun j => tr t (tripart lower aunit D) i j * b j)%F) /\ keeps (inv x) m m').
Proof.
  intros lower aunit t a x D b m Ha Hx Ex Dx. apply wp_ends.
  assert (E : triangularmul_hmatrix_avector (K := K) lower aunit t a x = trieval vrhs lower aunit t a x) by (destruct lower; reflexivity).
  rewrite E. eapply (wp_trieval L vrhs (vlaws Lf) lower aunit t a _ _ x D (fun p _ => b p)); try assumption; try exact I; try apply allr; try apply allw.
  intros m' Hx' Hk'. split; [exact Hx'|exact Hk'].
Qed.

(** The same for all columns of a matrix or of its adjoint. *)
Theorem C50_triangularinvmul_hmatrix_amatrix : forall (lower aunit t : bool) a (xt : bool) x D g m,
  htri lower aunit m a D -> mwf x -> mval m x g -> trows xt x = hrows a -> disj (inh a) (inm x) ->
  (aunit = true \/ forall i, i < hrows a -> D i i <> f0) ->
  ends (triangularinvmul_hmatrix_amatrix lower aunit t a xt x) m (fun _ m' =>
    (exists g', mval m' x g' /\ forall i k, i < hrows a -> k < tcols xt x ->
       sum (hrows a) (fun j => tr t (tripart lower aunit D) i j * tr xt g' j k)%F = tr xt g i k) /\ keeps (inm x) m m').
Proof.
  intros lower aunit t a xt x D g m Ha Hw Hx Ex Dx Hd. apply wp_ends.
  eapply (wp_trisolve L (mrhs xt) (mlaws Lf xt) lower aunit t a _ _ x D (tr xt g)); try assumption; try (apply tval_mval; assumption); try apply allr; try apply allw.
  intros F' m' Hs Hx' Hk'. split; [|exact Hk']. exists (tr xt F'). split; [exact Hx'|]. intros i k Hi Hk.
  rewrite <- (Hs i k Hi Hk). apply sum_ext. intros j Hj. rewrite (tr_tr L). reflexivity.
Qed.

Theorem C50_triangularmul_hmatrix_amatrix : forall (lower aunit t : bool) a (xt : bool) x D g m,
  htri lower aunit m a D -> mwf x -> mval m x g -> trows xt x = hrows a -> disj (inh a) (inm x) ->
  ends (triangularmul_hmatrix_amatrix lower aunit t a xt x) m (fun _ m' =>
    (exists g', mval m' x g' /\ forall i k, i < hrows a -> k < tcols xt x ->
       tr xt g' i k = sum (hrows a) (fun j => tr t (tripart lower aunit D) i j * tr xt g j k)%F) /\ keeps (inm x) m m').
Proof.
  intros lower aunit t a xt x D g m Ha Hw Hx Ex Dx. apply wp_ends.
  eapply (wp_trieval L (mrhs xt) (mlaws Lf xt) lower aunit t a _ _ x D (tr xt g)); try assumption; try (apply tval_mval; assumption); try apply allr; try apply allw.
  intros m' Hx' Hk'. split; [|exact Hk']. eexists. split; [exact Hx'|]. intros i k Hi Hk. apply (tr_tr L).
Qed.

(** ** Vectors in the original numbering: position [i] of the cluster belongs to the index [g i] *)
Definition ready (idx : arr nat) a (x : vec) (g : nat -> nat) b m : Prop :=
  perm_at idx (c_off (cp_c (hm_rc a))) (hrows a) g /\ vdim x = hrows a /\ vval m x b /\ vblk x < next m /\
  (forall c, inh a c -> fst c < next m) /\ disj (inh a) (inv x).

(** One triangular solve or product of the copy [xp]. *)
Lemma wp_tri1 (lower aunit t : bool) a m (xp : vec) m1 D b (Q : unit -> mem K -> Prop) :
  htri lower aunit m1 a D -> (forall c, inh a c -> fst c < next m) -> vblk xp = next m -> vdim xp = hrows a -> vval m1 xp b ->
  (aunit = true \/ forall i, i < hrows a -> D i i <> f0) ->
  (forall w m2, (forall i, i < hrows a -> mvec (hrows a) (tr t (tripart lower aunit D)) w i = b i) -> vval m2 xp w -> keeps (inv xp) m1 m2 -> Q tt m2) ->
  wp (fun _ => True) (fun c => True \/ fst c = next m) (trisolve vrhs lower aunit t a xp) m1 Q.
Proof.
  intros Ha Hin Bx Ex Hx Hd HQ.
  eapply (wp_trisolve L vrhs (vlaws Lf) lower aunit t a _ _ xp D (fun p _ => b p)); try assumption; try exact I.
  - intros c Hc Hb. apply Hin in Hc. apply inv_blk in Hb. lia.
  - intros c _. left. exact I.
  - intros c _. left. exact I.
  - intros F' m' Hs Hx' Hk'. apply (HQ (fun p => F' p 0)); [|exact Hx'|exact Hk']. intros i Hi. apply (Hs i 0 Hi). cbn. lia.
Qed.
Lemma wp_tri2 (lower aunit t : bool) a m (xp : vec) m1 D b (Q : unit -> mem K -> Prop) :
  htri lower aunit m1 a D -> (forall c, inh a c -> fst c < next m) -> vblk xp = next m -> vdim xp = hrows a -> vval m1 xp b ->
  (forall m2, vval m2 xp (mvec (hrows a) (tr t (tripart lower aunit D)) b) -> keeps (inv xp) m1 m2 -> Q tt m2) ->
  wp (fun _ => True) (fun c => True \/ fst c = next m) (trieval vrhs lower aunit t a xp) m1 Q.
Proof.
  intros Ha Hin Bx Ex Hx HQ.
  eapply (wp_trieval L vrhs (vlaws Lf) lower aunit t a _ _ xp D (fun p _ => b p)); try assumption; try exact I.
  - intros c Hc Hb. apply Hin in Hc. apply inv_blk in Hb. lia.
  - intros c _. left. exact I.
  - intros c _. left. exact I.
Qed.
Lemma htri_fresh (lower aunit : bool) a m m1 D : htri lower aunit m a D -> (forall c, inh a c -> fst c < next m) -> keeps (fun c => fst c = next m) m m1 -> htri lower aunit m1 a D.
Proof. intros Ha Hin Hk. eapply htri_keeps; [exact Ha|exact Hk|]. intros c Hc Hb. apply Hin in Hc. lia. Qed.
Lemma htri_xp (lower aunit : bool) a m m1 m2 (xp : vec) D : htri lower aunit m1 a D -> (forall c, inh a c -> fst c < next m) -> vblk xp = next m -> keeps (inv xp) m1 m2 ->
  htri lower aunit m2 a D.
Proof. intros Ha Hin Bx Hk. eapply htri_keeps; [exact Ha|exact Hk|]. intros c Hc Hb. apply Hin in Hc. apply inv_blk in Hb. lia. Qed.

Theorem C50_triangularsolve_hmatrix : forall idx (lower aunit t : bool) a (x : vec) (g : nat -> nat) D b m,
  ready idx a x g b m -> htri lower aunit m a D -> (aunit = true \/ forall i, i < hrows a -> D i i <> f0) ->
  ends (triangularsolve_hmatrix_avector idx lower aunit t a x) m (fun _ m' =>
    (exists x' : nat -> K, vval m' x x' /\ forall i, i < hrows a -> sum (hrows a) (fun j => tr t (tripart lower aunit D) i j * x' (g j))%F = b (g i)) /\
    keeps (inv x) m m').
Proof.
  intros idx lower aunit t a x g D b m (Hg & Ex & Hx & Bx & Hin & _) Ha Hd. apply wp_ends. unfold triangularsolve_hmatrix_avector. wstep.
  eapply (wp_perm _ _ idx a x g b _ m (fun w => forall i, i < hrows a -> mvec (hrows a) (tr t (tripart lower aunit D)) w i = b (g i))); try assumption; try apply allw.
  - intros xp m1 Q' Exp Bxp Hxp Hk HQ'.
    assert (E : triangularinvmul_hmatrix_avector (K := K) lower aunit t a xp = trisolve vrhs lower aunit t a xp) by (destruct lower; reflexivity). rewrite E.
    eapply (wp_tri1 lower aunit t a m xp m1 D); try eassumption. eapply htri_fresh; eassumption.
  - intros y y' m' Hs Hy Ey Hk. split; [|exact Hk]. exists y. split; [exact Hy|]. intros i Hi. rewrite <- (Hs i Hi). apply sum_ext. intros j Hj. rewrite (Ey j Hj). reflexivity.
Qed.

Theorem C50_triangulareval_hmatrix : forall idx (lower aunit t : bool) a (x : vec) (g : nat -> nat) D b m,
  ready idx a x g b m -> htri lower aunit m a D ->
  ends (triangulareval_hmatrix_avector idx lower aunit t a x) m (fun _ m' =>
    (exists x' : nat -> K, vval m' x x' /\ forall i, i < hrows a -> x' (g i) = sum (hrows a) (fun j => tr t (tripart lower aunit D) i j * b (g j))%F) /\
    keeps (inv x) m m').
Proof.
  intros idx lower aunit t a x g D b m (Hg & Ex & Hx & Bx & Hin & _) Ha. apply wp_ends. unfold triangulareval_hmatrix_avector.
  assert (Ec : hm_rc a = hm_cc a) by (destruct Ha; reflexivity). rewrite <- Ec, cp_eqb_refl. cbn [passert bind]. wstep.
  eapply (wp_perm _ _ idx a x g b _ m (fun w => forall i, i < hrows a -> w i = mvec (hrows a) (tr t (tripart lower aunit D)) (fun j => b (g j)) i)); try assumption; try apply allw.
  - intros xp m1 Q' Exp Bxp Hxp Hk HQ'.
    assert (E : triangularmul_hmatrix_avector (K := K) lower aunit t a xp = trieval vrhs lower aunit t a xp) by (destruct lower; reflexivity). rewrite E.
    eapply (wp_tri2 lower aunit t a m xp m1 D); try eassumption; [eapply htri_fresh; eassumption|].
    intros m2 Hx2 Hk2. eapply HQ'; [|exact Hx2|exact Hk2]. reflexivity.
  - intros y y' m' Hs Hy Ey Hk. split; [|exact Hk]. exists y. split; [exact Hy|]. intros i Hi. rewrite (Ey i Hi). apply (Hs i Hi).
Qed.

(** Products of two factors *)
Lemma two_solves n (g : nat -> nat) A (U V : nat -> nat -> K) b (v w y : nat -> K) :
  (forall i, i < n -> g i < n) -> (forall i j, i < n -> j < n -> g i = g j -> i = j) ->
  (forall p q, p < n -> q < n -> A (g p) (g q) = mmul n U V p q) ->
  (forall i, i < n -> mvec n U v i = b (g i)) -> (forall i, i < n -> mvec n V w i = v i) -> (forall i, i < n -> y (g i) = w i) ->
  forall i, i < n -> mvec n A y i = b i.
Proof.
  intros G1 G2 HA Hv Hw Hy k Hk. destruct (perm_onto n g G1 G2 k Hk) as (i & Hi & <-). rewrite <- (Hv i Hi). unfold mvec.
  rewrite <- (sum_perm L n g (fun j => A (g i) j * y j)%F G1 G2).
  transitivity (sum n (fun j => sum n (fun r => U i r * V r j * w j))%F).
  - apply sum_ext. intros j Hj. rewrite (HA i j Hi Hj), (Hy j Hj). unfold mmul. rewrite <- (sum_mul_r L). reflexivity.
  - rewrite (sum_swap L). apply sum_ext. intros r Hr. rewrite <- (Hw r Hr). unfold mvec. rewrite <- (sum_mul_l L). apply sum_ext. intros j Hj. ring.
Qed.
Lemma two_evals n (g : nat -> nat) A (U V : nat -> nat -> K) b (y : nat -> K) :
  (forall i, i < n -> g i < n) -> (forall i j, i < n -> j < n -> g i = g j -> i = j) ->
  (forall p q, p < n -> q < n -> A (g p) (g q) = mmul n U V p q) ->
  (forall i, i < n -> y (g i) = mvec n U (mvec n V (fun j => b (g j))) i) ->
  forall i, i < n -> y i = mvec n A b i.
Proof.
  intros G1 G2 HA Hy k Hk. destruct (perm_onto n g G1 G2 k Hk) as (i & Hi & <-). rewrite (Hy i Hi). unfold mvec.
  rewrite <- (sum_perm L n g (fun j => A (g i) j * b j)%F G1 G2).
  transitivity (sum n (fun j => sum n (fun r => U i r * V r j * b (g j)))%F).
  - rewrite (sum_swap L). apply sum_ext. intros r Hr. rewrite <- (sum_mul_l L). apply sum_ext. intros j Hj. ring.
  - apply sum_ext. intros j Hj. rewrite (HA i j Hi Hj). unfold mmul. rewrite <- (sum_mul_r L). reflexivity.
Qed.
Lemma mmul_tr n (U V : nat -> nat -> K) p q : mmul n (tr true V) (tr true U) p q = tr true (mmul n U V) p q.
Proof. unfold mmul. cbn [tr]. rewrite (sum_conj L). apply sum_ext. intros r Hr. rewrite (rl_conj_mul K L). ring. Qed.

(** The matrix [A] whose permuted version is the product of the unit lower and the upper triangle. *)
Definition lr_of (n : nat) (g : nat -> nat) A D : Prop :=
  forall p q, p < n -> q < n -> A (g p) (g q) = mmul n (tripart true true D) (tripart false false D) p q.
Definition chol_of (n : nat) (g : nat -> nat) A D : Prop :=
  forall p q, p < n -> q < n -> A (g p) (g q) = mmul n (tripart true false D) (tr true (tripart true false D)) p q.

Lemma wp_two (lower1 unit1 t1 lower2 unit2 t2 : bool) a m (xp : vec) m1 D b (Q : unit -> mem K -> Prop) :
  htri lower1 unit1 m a D -> htri lower2 unit2 m a D -> (forall c, inh a c -> fst c < next m) -> vblk xp = next m -> vdim xp = hrows a -> vval m1 xp b ->
  keeps (fun c => fst c = next m) m m1 -> (forall i, i < hrows a -> D i i <> f0) ->
  (forall w m2, (exists v, (forall i, i < hrows a -> mvec (hrows a) (tr t1 (tripart lower1 unit1 D)) v i = b i) /\
       (forall i, i < hrows a -> mvec (hrows a) (tr t2 (tripart lower2 unit2 D)) w i = v i)) -> vval m2 xp w -> keeps (inv xp) m1 m2 -> Q tt m2) ->
  wp (fun _ => True) (fun c => True \/ fst c = next m) (trisolve vrhs lower1 unit1 t1 a xp ;;; trisolve vrhs lower2 unit2 t2 a xp) m1 Q.
Proof.
  intros H1 H2 Hin Bx Ex Hx Hk Hd HQ. apply wp_bind.
  eapply (wp_tri1 lower1 unit1 t1 a m xp m1 D b); try eassumption; [eapply htri_fresh; eassumption|right; exact Hd|].
  intros v m2 Hv Hx2 Hk2. eapply (wp_tri1 lower2 unit2 t2 a m xp m2 D v); try eassumption; [|right; exact Hd|].
  - eapply htri_xp; [eapply htri_fresh; eassumption|exact Hin|exact Bx|exact Hk2].
  - intros w m3 Hw Hx3 Hk3. apply (HQ w); [|exact Hx3|eapply keeps_trans; eassumption]. exists v. split; assumption.
Qed.
Lemma wp_two_eval (lower1 unit1 t1 lower2 unit2 t2 : bool) a m (xp : vec) m1 D b (Q : unit -> mem K -> Prop) :
  htri lower1 unit1 m a D -> htri lower2 unit2 m a D -> (forall c, inh a c -> fst c < next m) -> vblk xp = next m -> vdim xp = hrows a -> vval m1 xp b ->
  keeps (fun c => fst c = next m) m m1 ->
  (forall m2, vval m2 xp (mvec (hrows a) (tr t2 (tripart lower2 unit2 D)) (mvec (hrows a) (tr t1 (tripart lower1 unit1 D)) b)) -> keeps (inv xp) m1 m2 -> Q tt m2) ->
  wp (fun _ => True) (fun c => True \/ fst c = next m) (trieval vrhs lower1 unit1 t1 a xp ;;; trieval vrhs lower2 unit2 t2 a xp) m1 Q.
Proof.
  intros H1 H2 Hin Bx Ex Hx Hk HQ. apply wp_bind.
  eapply (wp_tri2 lower1 unit1 t1 a m xp m1 D b); try eassumption; [eapply htri_fresh; eassumption|].
  intros m2 Hx2 Hk2. eapply (wp_tri2 lower2 unit2 t2 a m xp m2 D); try eassumption.
  - eapply htri_xp; [eapply htri_fresh; eassumption|exact Hin|exact Bx|exact Hk2].
  - intros m3 Hx3 Hk3. apply HQ; [exact Hx3|eapply keeps_trans; eassumption].
Qed.

(** Solving [A x' = x] and [A^* x' = x] by the LR factorisation stored in the H-matrix. *)
Theorem C50_lrsolve_hmatrix : forall idx (t : bool) a (x : vec) (g : nat -> nat) A D b m,
  ready idx a x g b m -> htri true true m a D -> htri false false m a D -> (forall i, i < hrows a -> D i i <> f0) -> lr_of (hrows a) g A D ->
  ends (lrsolve_hmatrix_avector idx t a x) m (fun _ m' =>
    (exists x' : nat -> K, vval m' x x' /\ forall i, i < hrows a -> mvec (hrows a) (tr t A) x' i = b i) /\ keeps (inv x) m m').
Proof.
  intros idx t a x g A D b m (Hg & Ex & Hx & Bx & Hin & _) Hl Hu Hd HA. apply wp_ends. unfold lrsolve_hmatrix_avector.
  destruct t; [unfold lrsolve_t_hmatrix_avector|unfold lrsolve_n_hmatrix_avector]; wstep.
  - eapply (wp_perm _ _ idx a x g b _ m (fun w => exists v, (forall i, i < hrows a -> mvec (hrows a) (tr true (tripart false false D)) v i = b (g i)) /\
       (forall i, i < hrows a -> mvec (hrows a) (tr true (tripart true true D)) w i = v i))); try assumption; try apply allw.
    + intros xp m1 Q' Exp Bxp Hxp Hk HQ'. eapply (wp_two false false true true true true a m xp m1 D); eassumption.
    + intros y y' m' (v & H1 & H2) Hy Ey Hk. split; [|exact Hk]. exists y. split; [exact Hy|]. destruct Hg as (G0 & G1 & G2).
      apply (two_solves (hrows a) g (tr true A) (tr true (tripart false false D)) (tr true (tripart true true D)) b v y' y G1 G2); [|exact H1|exact H2|exact Ey].
      intros p q Hp Hq. rewrite mmul_tr. cbn [tr]. f_equal. apply HA; assumption.
  - eapply (wp_perm _ _ idx a x g b _ m (fun w => exists v, (forall i, i < hrows a -> mvec (hrows a) (tr false (tripart true true D)) v i = b (g i)) /\
       (forall i, i < hrows a -> mvec (hrows a) (tr false (tripart false false D)) w i = v i))); try assumption; try apply allw.
    + intros xp m1 Q' Exp Bxp Hxp Hk HQ'. eapply (wp_two true true false false false false a m xp m1 D); eassumption.
    + intros y y' m' (v & H1 & H2) Hy Ey Hk. split; [|exact Hk]. exists y. split; [exact Hy|]. destruct Hg as (G0 & G1 & G2).
      apply (two_solves (hrows a) g (tr false A) (tripart true true D) (tripart false false D) b v y' y G1 G2); [exact HA|exact H1|exact H2|exact Ey].
Qed.

Theorem C50_lreval_hmatrix : forall idx (t : bool) a (x : vec) (g : nat -> nat) A D b m,
  ready idx a x g b m -> htri true true m a D -> htri false false m a D -> lr_of (hrows a) g A D ->
  ends (lreval_hmatrix_avector idx t a x) m (fun _ m' => vval m' x (mvec (hrows a) (tr t A) b) /\ keeps (inv x) m m').
Proof.
  intros idx t a x g A D b m (Hg & Ex & Hx & Bx & Hin & _) Hl Hu HA. apply wp_ends. unfold lreval_hmatrix_avector.
  destruct t; [unfold lreval_t_hmatrix_avector|unfold lreval_n_hmatrix_avector]; wstep.
  - eapply (wp_perm _ _ idx a x g b _ m (fun w => forall i, w i = mvec (hrows a) (tr true (tripart false false D)) (mvec (hrows a) (tr true (tripart true true D)) (fun j => b (g j))) i)); try assumption; try apply allw.
    + intros xp m1 Q' Exp Bxp Hxp Hk HQ'. eapply (wp_two_eval true true true false false true a m xp m1 D); try eassumption.
      intros m2 Hx2 Hk2. eapply HQ'; [|exact Hx2|exact Hk2]. reflexivity.
    + intros y y' m' H1 Hy Ey Hk. split; [|exact Hk]. destruct Hg as (G0 & G1 & G2).
      eapply vval_ext; [exact Hy|]. intros i Hi. rewrite Ex in Hi.
      apply (two_evals (hrows a) g (tr true A) (tr true (tripart false false D)) (tr true (tripart true true D)) b y G1 G2); [| |exact Hi].
      * intros p q Hp Hq. rewrite mmul_tr. cbn [tr]. f_equal. apply HA; assumption.
      * intros k Hk'. rewrite (Ey k Hk'). apply H1.
  - eapply (wp_perm _ _ idx a x g b _ m (fun w => forall i, w i = mvec (hrows a) (tr false (tripart true true D)) (mvec (hrows a) (tr false (tripart false false D)) (fun j => b (g j))) i)); try assumption; try apply allw.
    + intros xp m1 Q' Exp Bxp Hxp Hk HQ'. eapply (wp_two_eval false false false true true false a m xp m1 D); try eassumption.
      intros m2 Hx2 Hk2. eapply HQ'; [|exact Hx2|exact Hk2]. reflexivity.
    + intros y y' m' H1 Hy Ey Hk. split; [|exact Hk]. destruct Hg as (G0 & G1 & G2).
      eapply vval_ext; [exact Hy|]. intros i Hi. rewrite Ex in Hi.
      apply (two_evals (hrows a) g (tr false A) (tripart true true D) (tripart false false D) b y G1 G2); [exact HA| |exact Hi].
      intros k Hk'. rewrite (Ey k Hk'). apply H1.
Qed.

(** Solving [A x' = x] by the Cholesky factorisation stored in the lower half of the H-matrix. *)
Theorem C50_cholsolve_hmatrix : forall idx a (x : vec) (g : nat -> nat) A D b m,
  ready idx a x g b m -> htri true false m a D -> (forall i, i < hrows a -> D i i <> f0) -> chol_of (hrows a) g A D ->
  ends (cholsolve_hmatrix_avector idx a x) m (fun _ m' =>
    (exists x' : nat -> K, vval m' x x' /\ forall i, i < hrows a -> mvec (hrows a) A x' i = b i) /\ keeps (inv x) m m').
Proof.
  intros idx a x g A D b m (Hg & Ex & Hx & Bx & Hin & _) Hl Hd HA. apply wp_ends. unfold cholsolve_hmatrix_avector. wstep.
  eapply (wp_perm _ _ idx a x g b _ m (fun w => exists v, (forall i, i < hrows a -> mvec (hrows a) (tr false (tripart true false D)) v i = b (g i)) /\
     (forall i, i < hrows a -> mvec (hrows a) (tr true (tripart true false D)) w i = v i))); try assumption; try apply allw.
  + intros xp m1 Q' Exp Bxp Hxp Hk HQ'. eapply (wp_two true false false true false true a m xp m1 D); eassumption.
  + intros y y' m' (v & H1 & H2) Hy Ey Hk. split; [|exact Hk]. exists y. split; [exact Hy|]. destruct Hg as (G0 & G1 & G2).
    apply (two_solves (hrows a) g A (tripart true false D) (tr true (tripart true false D)) b v y' y G1 G2); [exact HA|exact H1|exact H2|exact Ey].
Qed.

Theorem C50_choleval_hmatrix : forall idx a (x : vec) (g : nat -> nat) A D b m,
  ready idx a x g b m -> htri true false m a D -> chol_of (hrows a) g A D ->
  ends (choleval_hmatrix_avector idx a x) m (fun _ m' => vval m' x (mvec (hrows a) A b) /\ keeps (inv x) m m').
Proof.
  intros idx a x g A D b m (Hg & Ex & Hx & Bx & Hin & _) Hl HA. apply wp_ends. unfold choleval_hmatrix_avector. wstep.
  eapply (wp_perm _ _ idx a x g b _ m (fun w => forall i, w i = mvec (hrows a) (tr false (tripart true false D)) (mvec (hrows a) (tr true (tripart true false D)) (fun j => b (g j))) i)); try assumption; try apply allw.
  + intros xp m1 Q' Exp Bxp Hxp Hk HQ'. eapply (wp_two_eval true false true true false false a m xp m1 D); try eassumption.
    intros m2 Hx2 Hk2. eapply HQ'; [|exact Hx2|exact Hk2]. reflexivity.
  + intros y y' m' H1 Hy Ey Hk. split; [|exact Hk]. destruct Hg as (G0 & G1 & G2).
    eapply vval_ext; [exact Hy|]. intros i Hi. rewrite Ex in Hi.
    apply (two_evals (hrows a) g A (tripart true false D) (tr true (tripart true false D)) b y G1 G2); [exact HA| |exact Hi].
    intros k Hk'. rewrite (Ey k Hk'). apply H1.
Qed.
End C50.

(** The 3 x 3 example matrix of PropHm.v, with its permutation, a right-hand side and matrices. *)
Lemma xh_tri (lower aunit : bool) : htri lower aunit (mem_of xhm) xh xhD.
Proof.
  eapply (htri_super _ _ _ _ _ 2 _ (fun i => nth i [1; 2] 0)); try reflexivity.
  - intros [|[|i]] [|[|j]] s Hi Hj Hs; try lia; cbn in Hs; injection Hs as <-; split; reflexivity.
  - intros [|[|j]] s Hj Hs; try lia; cbn in Hs; injection Hs as <-; constructor; try reflexivity.
    + intros p q Hp Hq _. cbn in Hp, Hq. assert (p = 0) by lia. assert (q = 0) by lia. subst. reflexivity.
    + intros p q Hp Hq _. cbn in Hp, Hq. destruct p as [|[|p]], q as [|[|q]]; try lia; reflexivity.
  - intros [|[|i]] [|[|j]] s Hi Hj Hij Hs; try lia; try (destruct lower; lia); cbn in Hs; injection Hs as <-; constructor; try reflexivity.
    + eapply mval_ext; [apply mval_of; reflexivity|]. intros p q Hp Hq. cbn in Hp, Hq. destruct p; [|lia]. cbn [nsum nth Nat.add]. unfold xhD.
      cbn [Nat.ltb Nat.leb Nat.sub]. rewrite Nat.sub_0_r. reflexivity.
    + exists (mof xhm xhA), (mof xhm xhB). split; [apply mval_of; reflexivity|]. split; [apply mval_of; reflexivity|]. split; [reflexivity|]. split; [reflexivity|].
      intros p q Hp Hq. cbn in Hp, Hq. destruct q; [|lia]. cbn [nsum nth Nat.add]. unfold xhD. cbn [Nat.ltb Nat.leb Nat.sub]. rewrite Nat.sub_0_r. reflexivity.
Qed.

Definition xha_lr (i j : nat) : GQf := mmul 3 (tripart true true xhD) (tripart false false xhD) (xhgi i) (xhgi j).
Definition xha_chol (i j : nat) : GQf := mmul 3 (tripart true false xhD) (tr true (tripart true false xhD)) (xhgi i) (xhgi j).

Example C50_hyps : let m := mem_of xhm in let x := Vec 5 0 3 true in
  ready xhidx xh x xhg (vof xhm x) m /\ (forall lower aunit, htri lower aunit m xh xhD) /\ (forall i, i < hrows xh -> xhD i i <> f0) /\
  lr_of (hrows xh) xhg xha_lr xhD /\ chol_of (hrows xh) xhg xha_chol xhD /\ xha_lr 0 1 <> f0.
Proof.
  cbv zeta. split.
  { split; [exact xh_perm|]. split; [reflexivity|]. split; [apply vval_of; reflexivity|]. split; [cbn; lia|].
    split; [intros a Ha; apply xh_in in Ha; cbn; lia|]. intros a Ha Hb. apply xh_in in Ha. apply inv_blk in Hb. cbn in *. lia. }
  split; [intros; apply xh_tri|]. split.
  { intros [|[|[|i]]] Hi; try (vm_compute; discriminate). cbn in Hi. lia. }
  split; [intros [|[|[|i]]] [|[|[|j]]] Hi Hj; try reflexivity; cbn in Hi, Hj; lia|].
  split; [intros [|[|[|i]]] [|[|[|j]]] Hi Hj; try reflexivity; cbn in Hi, Hj; lia|].
  vm_compute. discriminate.
Qed.

Example C50_hyps_mat : let m := mem_of xhm in let y := Mat 5 0 1 1 3 true in let z := Mat 6 0 3 3 1 true in let r := Rk xhA xhB 1 in
  mwf z /\ hrep m xh xhD /\ mval m y (mof xhm y) /\ mval m z (mof xhm z) /\ disj (inh xh) (inm z) /\ disj (inm y) (inm z) /\
  trows false z = hrows xh /\ trows true y = hcols xh /\ tcols true y = tcols false z /\
  (exists D, rkrep m r D) /\ disj (inrk r) (inm z).
Proof.
  cbv zeta. split; [unfold mwf; cbn; lia|]. split; [exact xh_rep|]. split; [apply mval_of; reflexivity|]. split; [apply mval_of; reflexivity|].
  split. { intros a Ha Hb. apply xh_in in Ha. apply inm_blk in Hb. cbn in *. lia. }
  split. { intros a Ha Hb. apply inm_blk in Ha, Hb. cbn in *. congruence. }
  split; [reflexivity|]. split; [reflexivity|]. split; [reflexivity|]. split.
  - exists (lowrank 1 (mof xhm xhA) (mof xhm xhB)), (mof xhm xhA), (mof xhm xhB).
    split; [apply mval_of; reflexivity|]. split; [apply mval_of; reflexivity|]. split; [reflexivity|]. split; [reflexivity|]. reflexivity.
  - intros a [Ha|Ha] Hb; apply inm_blk in Ha, Hb; cbn in *; congruence.
Qed.

Print Assumptions C50_addmul_rkmatrix_amatrix.
Print Assumptions C50_addmul_hmatrix_amatrix.
Print Assumptions C50_triangularinvmul_hmatrix_avector.
Print Assumptions C50_triangularmul_hmatrix_avector.
Print Assumptions C50_triangularinvmul_hmatrix_amatrix.
Print Assumptions C50_triangularmul_hmatrix_amatrix.
Print Assumptions C50_triangularsolve_hmatrix.
Print Assumptions C50_triangulareval_hmatrix.
Print Assumptions C50_lrsolve_hmatrix.
Print Assumptions C50_lreval_hmatrix.
Print Assumptions C50_cholsolve_hmatrix.
Print Assumptions C50_choleval_hmatrix.
