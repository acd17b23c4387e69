(** * Properties C23 and C24: low-rank matrices and truncation *)
From Coq Require Import Arith Lia List Bool ZArith Ring.
From Verif Require Import Fld Inst Ord OrdInst Prog View Spec Loop Avector Amatrix AmatrixP2 Norm NormP Rkmatrix RkSpec RkP Trunc TruncP.
Import ListNotations.

Section C23.
Context {K : fops} (L : ring_laws K).
Implicit Types (m : mem K) (r : rkm) (D : nat -> nat -> K).

(** y <- y + alpha A B^* x. *)
Theorem C23_addeval_rkmatrix : forall alpha r x y D f h m,
  rkrep m r D -> vval m x f -> vval m y h -> vdim y = mrows (rk_A r) -> vdim x = mrows (rk_B r) ->
  disj (inv x) (inv y) -> disj (inrk r) (inv y) ->
  ends (addeval_rkmatrix_avector alpha r x y) m (fun _ m' =>
    vval m' y (fun i => h i + alpha * sum (vdim x) (fun j => D i j * f j))%F /\ keeps (inv y) m m').
Proof.
  intros alpha r x y D f h m Hr Hx Hy H1 H2 H3 H4. apply wp_ends. eapply (wp_addeval_rk L); eauto; try (intros ? _; auto; left; exact I).
Qed.

(** y <- y + alpha B A^* x, the adjoint matrix. *)
Theorem C23_addevaltrans_rkmatrix : forall alpha r x y D f h m,
  rkrep m r D -> vval m x f -> vval m y h -> vdim x = mrows (rk_A r) -> vdim y = mrows (rk_B r) ->
  disj (inv x) (inv y) -> disj (inrk r) (inv y) ->
  ends (addevaltrans_rkmatrix_avector alpha r x y) m (fun _ m' =>
    vval m' y (fun j => h j + alpha * sum (vdim x) (fun i => fconj (D i j) * f i))%F /\ keeps (inv y) m m').
Proof.
  intros alpha r x y D f h m Hr Hx Hy H1 H2 H3 H4. apply wp_ends. eapply (wp_addevaltrans_rk L); eauto; try (intros ? _; auto; left; exact I).
Qed.

Theorem C23_mvm_rkmatrix : forall alpha (t : bool) r x y D f h m,
  rkrep m r D -> vval m x f -> vval m y h ->
  vdim y = (if t then mrows (rk_B r) else mrows (rk_A r)) -> vdim x = (if t then mrows (rk_A r) else mrows (rk_B r)) ->
  disj (inv x) (inv y) -> disj (inrk r) (inv y) ->
  ends (mvm_rkmatrix_avector alpha t r x y) m (fun _ m' =>
    vval m' y (fun i => h i + alpha * mvec (vdim x) (tr t D) f i)%F /\ keeps (inv y) m m').
Proof.
  intros alpha t r x y D f h m Hr Hx Hy H1 H2 H3 H4. apply wp_ends. eapply (wp_mvm_rk L); eauto; try (intros ? _; auto; left; exact I).
Qed.

Theorem C23_scale_rkmatrix : forall alpha r D m,
  rkrep m r D -> mwf (rk_A r) -> disj (inm (rk_A r)) (inm (rk_B r)) ->
  ends (scale_rkmatrix alpha r) m (fun _ m' => rkrep m' r (fun i j => alpha * D i j)%F /\ keeps (inrk r) m m').
Proof.
  intros alpha r D m Hr Hw Hd. apply wp_ends. eapply (wp_scale_rk L); eauto; [intros ? _; exact I|].
  intros m' H1 H2. split; [exact H1|]. eapply keeps_mono; [|exact H2]. intros a Ha. left. exact Ha.
Qed.

(** A new matrix owns its storage and does not touch anything else; with rank zero it is the zero
    matrix. *)
Theorem C23_init_rkmatrix : forall rows cols k m,
  ends (init_rkmatrix rows cols k) m (fun r m' =>
    rkown m' r /\ mrows (rk_A r) = rows /\ mrows (rk_B r) = cols /\ rk_k r = k /\
    (k = 0 -> rkrep m' r (fun _ _ => f0)) /\ keeps (fun a => next m <= fst a) m m').
Proof.
  intros rows cols k m. apply wp_ends. apply wp_init_rk. intros r m' H1 H2 H3 H4 H5 H6.
  repeat (split; auto). intros ->. apply rk_zero; assumption.
Qed.

(** Changing the size or the rank. *)
Theorem C23_resize_rkmatrix : forall r rows cols k m, rkown m r ->
  ends (resize_rkmatrix r rows cols k) m (fun r' m' =>
    rkown m' r' /\ mrows (rk_A r') = rows /\ mrows (rk_B r') = cols /\ rk_k r' = k /\
    (k = 0 -> rkrep m' r' (fun _ _ => f0)) /\ keeps (fun a => rkblk r a \/ next m <= fst a) m m').
Proof.
  intros r rows cols k m Ho. apply wp_ends. apply wp_resize_rk; [exact Ho|]. intros r' m' H1 H2 H3 H4 H5 H6.
  repeat (split; auto). intros ->. apply rk_zero; assumption.
Qed.

Theorem C23_setrank_rkmatrix : forall r k m, rkown m r ->
  ends (setrank_rkmatrix r k) m (fun r' m' =>
    rkown m' r' /\ mrows (rk_A r') = mrows (rk_A r) /\ mrows (rk_B r') = mrows (rk_B r) /\ rk_k r' = k /\
    (k = 0 -> rkrep m' r' (fun _ _ => f0)) /\ keeps (fun a => rkblk r a \/ next m <= fst a) m m').
Proof. intros r k m Ho. rewrite setrank_resize. exact (C23_resize_rkmatrix r _ _ k m Ho). Qed.

(** A copy represents the same matrix, a transposed copy the adjoint matrix, also if the target had
    another rank before. *)
Theorem C23_copy_rkmatrix : forall (t : bool) a b D m,
  rkrep m a D -> rkown m b -> mblk (rk_A a) < next m -> mblk (rk_B a) < next m -> (forall p, rkblk a p -> ~ rkblk b p) ->
  mrows (rk_A b) = (if t then mrows (rk_B a) else mrows (rk_A a)) -> mrows (rk_B b) = (if t then mrows (rk_A a) else mrows (rk_B a)) ->
  ends (copy_rkmatrix t a b) m (fun b' m' =>
    rkrep m' b' (if t then (fun i j => fconj (D j i)) else D) /\ rkrep m' a D /\ rkown m' b' /\ rk_k b' = rk_k a /\
    mrows (rk_A b') = mrows (rk_A b) /\ mrows (rk_B b') = mrows (rk_B b) /\
    keeps (fun p => rkblk b p \/ next m <= fst p) m m').
Proof.
  intros t a b D m H1 H2 H3 H4 H5 H6 H7. apply wp_ends. eapply (wp_copy_rk L); eauto.
  intros b' m' E1 E2 E3 E4 E5 E6 E7 E8. repeat (split; auto).
Qed.

Theorem C23_clone_rkmatrix : forall a D m,
  rkrep m a D -> mblk (rk_A a) < next m -> mblk (rk_B a) < next m ->
  ends (clone_rkmatrix a) m (fun b m' =>
    rkrep m' b D /\ rkrep m' a D /\ rkown m' b /\ rk_k b = rk_k a /\
    mrows (rk_A b) = mrows (rk_A a) /\ mrows (rk_B b) = mrows (rk_B a) /\ (forall p, rkblk b p -> ~ rkblk a p) /\
    keeps (fun p => next m <= fst p) m m').
Proof.
  intros a D m H1 H2 H3. apply wp_ends. eapply (wp_clone_rk L); eauto.
  intros b m' E1 E2 E3 E4 E5 E6 E7 E8. repeat (split; auto). intros p Hp Hq. apply E7 in Hp. destruct Hq; lia.
Qed.

(** A submatrix shares the storage and represents the corresponding part of the matrix. *)
Theorem C23_init_sub_rkmatrix : forall r rows roff cols coff D m,
  rkrep m r D -> roff + rows <= mrows (rk_A r) -> coff + cols <= mrows (rk_B r) ->
  ends (init_sub_rkmatrix r rows roff cols coff) m (fun r' m' =>
    m' = m /\ mrows (rk_A r') = rows /\ mrows (rk_B r') = cols /\ rk_k r' = rk_k r /\
    rkrep m' r' (fun i j => D (roff + i) (coff + j)) /\ forall a, inrk r' a -> inrk r a).
Proof.
  intros r rows roff cols coff D m Hr H1 H2. apply wp_ends. unfold init_sub_rkmatrix.
  assert (E := Hr). destruct E as (A & B & HA & HB & CA & CB & HD).
  apply wp_bind. apply AmatrixP.wp_init_sub_amatrix; [lia|lia|]. apply wp_bind. apply AmatrixP.wp_init_sub_amatrix; [lia|lia|]. cbn [wp].
  split; [reflexivity|]. split; [reflexivity|]. split; [reflexivity|]. split; [reflexivity|].
  split; [apply rkrep_sub; assumption|]. intros a [Ha|Ha]; [left|right].
  - destruct Ha as (i & j & Hi & Hj & ->). cbn in Hi, Hj. exists (roff + i), (0 + j). split; [lia|]. split; [lia|].
    unfold ma; cbn. f_equal. lia.
  - destruct Ha as (i & j & Hi & Hj & ->). cbn in Hi, Hj. exists (coff + i), (0 + j). split; [lia|]. split; [lia|].
    unfold ma; cbn. f_equal. lia.
Qed.

(** The norm estimators run the power iteration of the represented matrix and leave the memory as it was. *)
Theorem C23_norm2_rkmatrix : forall sq pos rnd r D m,
  rkrep m r D -> (forall a, inrk r a -> fst a < next m) ->
  ends (norm2_rkmatrix sq pos rnd r) m (fun n m' =>
    n = sq (power_it sq pos (mrows (rk_A r)) (mrows (rk_B r)) D (fun i j => fconj (D j i)) NORM_STEPS (sq (dot (mrows (rk_B r)) rnd rnd)) rnd) /\
    keeps (fun _ => False) m m').
Proof.
  intros sq pos rnd r D m Hr Hb. apply wp_ends. unfold norm2_rkmatrix.
  eapply (wp_norm2_matrix L) with (F := inrk r); [exact (rk_mvm_ok L r D)|exact Hr|exact Hb|intros ? _; left; exact I|].
  intros m' Hk. split; [reflexivity|exact Hk].
Qed.

Theorem C23_norm2diff_rkmatrix : forall sq pos rnd a b D E m,
  rkrep m a D -> rkrep m b E -> mrows (rk_A b) = mrows (rk_A a) -> mrows (rk_B b) = mrows (rk_B a) ->
  (forall p, inrk a p \/ inrk b p -> fst p < next m) ->
  ends (norm2diff_rkmatrix sq pos rnd a b) m (fun n m' =>
    n = sq (power_it sq pos (mrows (rk_A a)) (mrows (rk_B a)) (fun i j => D i j - E i j)%F (fun i j => fconj (D j i) - fconj (E j i))%F
              NORM_STEPS (sq (dot (mrows (rk_B a)) rnd rnd)) rnd) /\
    keeps (fun _ => False) m m').
Proof.
  intros sq pos rnd a b D E m Ha Hb E1 E2 Hf. apply wp_ends. unfold norm2diff_rkmatrix, norm2diff_matrix.
  pose proof (rk_mvm_ok L a D) as M1. pose proof (rk_mvm_ok L b E) as M2. rewrite E1, E2 in M2.
  eapply (wp_norm2_matrix L) with (F := fun p => inrk a p \/ inrk b p); [exact (mvm_ok_diff L _ _ _ _ _ _ _ _ _ _ _ _ M1 M2)| |exact Hf|intros ? _; left; exact I|].
  - split; assumption.
  - intros m' Hk. split; [reflexivity|exact Hk].
Qed.
End C23.

(** The hypotheses hold for a 2 x 3 matrix of rank 2 with complex entries. *)
Definition xrkA : mat := Mat 0 0 2 2 2 true.
Definition xrkB : mat := Mat 1 0 3 3 2 true.
Definition xrkm : list (list GQf) :=
  [ [gq 1 0; gq 2 1; gq 0 1; gq 1 1];  [gq 1 0; gq 0 2; gq 3 0; gq 1 0; gq 1 0; gq 0 1];  [gq 1 0; gq 2 0; gq 0 0];  [gq 5 0; gq 6 0];
    [gq 0 0; gq 0 0; gq 0 0];  [gq 0 0; gq 0 0] ].
Example C23_hyps : let r := Rk xrkA xrkB 2 in let m := mem_of xrkm in
  rkrep m r (lowrank 2 (mof xrkm xrkA) (mof xrkm xrkB)) /\ rkown m r /\
  vval m (Vec 2 0 3 true) (vof xrkm (Vec 2 0 3 true)) /\ vval m (Vec 3 0 2 true) (vof xrkm (Vec 3 0 2 true)) /\
  disj (inv (Vec 2 0 3 true)) (inv (Vec 3 0 2 true)) /\ disj (inrk r) (inv (Vec 3 0 2 true)) /\ disj (inm xrkA) (inm xrkB) /\
  rkown m (Rk (Mat 4 0 3 3 1 true) (Mat 5 0 2 2 1 true) 1) /\
  (forall p, rkblk r p -> ~ rkblk (Rk (Mat 4 0 3 3 1 true) (Mat 5 0 2 2 1 true) 1) p).
Proof.
  cbv zeta. assert (HA : mval (mem_of xrkm) xrkA (mof xrkm xrkA)) by (apply mval_of; reflexivity).
  assert (HB : mval (mem_of xrkm) xrkB (mof xrkm xrkB)) by (apply mval_of; reflexivity).
  split. { exists (mof xrkm xrkA), (mof xrkm xrkB). repeat split; auto. }
  split. { unfold rkown, mwf; cbn [rk_A rk_B rk_k mown mblk mcols mrows mld xrkA xrkB mem_of next xrkm length]. repeat split; auto; try lia; eapply mval_alloc; eassumption. }
  split; [apply vval_of; reflexivity|]. split; [apply vval_of; reflexivity|].
  split. { intros a Ha Hb. apply inv_blk in Ha, Hb. cbn in *. congruence. }
  split. { intros a [Ha|Ha] Hb; apply inm_blk in Ha; apply inv_blk in Hb; cbn in *; congruence. }
  split. { intros a Ha Hb. apply inm_blk in Ha, Hb. cbn in *. congruence. }
  split. { unfold rkown, mwf; cbn [rk_A rk_B rk_k mown mblk mcols mrows mld mem_of next xrkm length]. repeat split; auto; try lia; eapply mval_alloc; apply mval_of; reflexivity. }
  intros p [Hp|Hp] [Hq|Hq]; cbn in *; congruence.
Qed.

(** ** C24: choosing the rank *)
Section C24.
Context {K : ofops} (L : ofield_laws K).
Implicit Types (m : mem K) (s : nat -> K).
Let OL := ofield_order L.

(** Dropping the singular values [s k, ..., s (n-1)] meets the accuracy [eps] in the given mode:
    Frobenius norm (the sum of squares) or spectral norm (the largest value), absolute or relative
    to the norm of the whole matrix. *)
Definition accepted (frobenius absolute : bool) (eps : K) (s : nat -> K) (n k : nat) : Prop :=
  if frobenius then
    fle (sum (n - k) (fun i => s (k + i)%nat * s (k + i)%nat)%F)
        (if absolute then eps * eps else eps * eps * sum n (fun i => s i * s i))%F
  else
    forall i, k <= i < n -> fle (s i) (if absolute then eps else eps * s 0%nat)%F.

(** The returned rank is at most the number of singular values, the error bound holds for it, and
    it holds for no smaller rank.  Without a truncation mode (null pointer) the relative spectral
    error is used. *)
Theorem C24_findrank_truncmode : forall (tm : option truncmode) eps sigma s m,
  vval m sigma s ->
  (forall i, S i < vdim sigma -> fle (s (S i)) (s i)) ->
  let fr := match tm with Some t => tm_frobenius t | None => false end in
  let ab := match tm with Some t => tm_absolute t | None => false end in
  ends (findrank_truncmode tm eps sigma) m (fun k m' =>
    m' = m /\ k <= vdim sigma /\ accepted fr ab eps s (vdim sigma) k /\
    forall k', k' < k -> ~ accepted fr ab eps s (vdim sigma) k').
Proof.
  intros tm eps sigma s m Hs Hmon fr ab. apply wp_ends. unfold findrank_truncmode. fold fr ab. clearbody fr ab.
  assert (Hdec : forall i j, i <= j < vdim sigma -> fle (s j) (s i)).
  { intros i j. induction j as [|j IH]; intros H.
    - replace i with 0 by lia. apply (ole_refl OL).
    - destruct (Nat.eq_dec i (S j)) as [->|]; [apply (ole_refl OL)|].
      eapply (ole_trans OL); [apply Hmon; lia|]. apply IH. lia. }
  assert (Hrd : rdok (fun _ => True) (fun _ => True) (inv sigma)) by (intros ? _; left; exact I).
  assert (Hfrob : forall bound, (if ab then eps * eps else eps * eps * sum (vdim sigma) (fun i => s i * s i))%F = bound -> fle f0 bound -> fr = true ->
    wp (fun _ => True) (fun _ => True) (findrank_frob sigma bound (vdim sigma) f0) m (fun k m' =>
    m' = m /\ k <= vdim sigma /\ accepted fr ab eps s (vdim sigma) k /\
    forall k', k' < k -> ~ accepted fr ab eps s (vdim sigma) k')).
  { intros bound Eb Hb Ef. eapply wp_conseq.
    - apply (wp_findrank_frob L); [exact Hrd|exact Hs|lia|unfold tailsqr; rewrite Nat.sub_diag; reflexivity|left; reflexivity].
    - cbv beta. intros k m' (E1 & E2 & E3 & E4). split; [exact E1|]. split; [exact E2|]. unfold accepted. rewrite Ef, Eb.
      split.
      + destruct E3 as [->|E3]; [rewrite Nat.sub_diag; exact Hb|exact E3].
      + intros k' Hk' Ha. apply E4 in Hk'. unfold tailsqr in Hk'. unfold fle in Ha. congruence. }
  assert (Heucl : forall p bound, (0 < vdim sigma -> (if ab then eps else eps * s 0%nat)%F = bound) ->
    (forall Q : K -> mem K -> Prop, 0 < vdim sigma -> Q bound m -> wp (fun _ => True) (fun _ => True) p m Q) -> fr = false ->
    wp (fun _ => True) (fun _ => True) (findrank_eucl sigma p (vdim sigma) 0) m (fun k m' =>
    m' = m /\ k <= vdim sigma /\ accepted fr ab eps s (vdim sigma) k /\
    forall k', k' < k -> ~ accepted fr ab eps s (vdim sigma) k')).
  { intros p bound Eb Hp Ef. eapply wp_conseq.
    - apply (wp_findrank_eucl sigma p bound s m); [exact Hrd|exact Hs|exact Hp|lia|intros; lia].
    - cbv beta. intros k m' (E1 & E2 & E3 & E4). split; [exact E1|]. split; [exact E2|]. unfold accepted. rewrite Ef.
      split.
      + intros i Hi. rewrite Eb by lia. eapply (ole_trans OL); [apply (Hdec k i Hi)|]. apply E3. lia.
      + intros k' Hk' Ha. specialize (E4 _ Hk'). specialize (Ha k' ltac:(lia)). rewrite Eb in Ha by lia. unfold fle in Ha. congruence. }
  destruct fr.
  - destruct ab.
    + apply Hfrob; [reflexivity|apply (fsq_nn L)|reflexivity].
    + apply wp_bind. eapply (wp_forS (fun k norm m1 => m1 = m /\ norm = sum k (fun i => s i * s i)%F)); [split; reflexivity| |].
      * intros i norm m1 Hi [-> ->]. eapply wp_bind, wp_vload; [exact Hs|lia|exact Hrd|]. cbn [wp]. split; reflexivity.
      * intros norm m1 [-> ->]. apply Hfrob; [reflexivity| |reflexivity]. apply (fle_mul_nn L); [apply (fsq_nn L)|].
        cbn [Nat.add]. generalize (vdim sigma). intros n. induction n as [|n IH]; [apply (ole_refl OL)|].
        cbn [sum]. apply (fle_add_nn L); [exact IH|apply (fsq_nn L)].
  - destruct ab.
    + apply Heucl with (bound := eps); [reflexivity| |reflexivity]. intros Q _ HQ. exact HQ.
    + apply Heucl with (bound := (eps * s 0%nat)%F); [reflexivity| |reflexivity]. intros Q H0 HQ.
      eapply wp_bind, wp_vload; [exact Hs|exact H0|exact Hrd|]. exact HQ.
Qed.
End C24.

(** Four singular values 8, 4, 2, 1: the absolute Frobenius error for the tolerance 3 leads to rank 2. *)
Example C24_hyps :
  let l := [[qo 8; qo 4; qo 2; qo 1]] in let sigma := Vec 0 0 4 true in
  vval (mem_of l) sigma (@vof Qcf l sigma) /\
  (forall i, S i < vdim sigma -> @fle QcO (@vof Qcf l sigma (S i)) (@vof Qcf l sigma i)) /\
  run (@findrank_truncmode QcO (Some (Tm true true)) (qo 3) sigma) (mem_of l) = Ok (2, mem_of l).
Proof.
  cbv zeta. split; [apply (@vval_of Qcf); reflexivity|]. split; [|reflexivity].
  intros [|[|[|[|i]]]] Hi; try reflexivity; cbn in Hi; lia.
Qed.

Print Assumptions C23_addeval_rkmatrix.
Print Assumptions C23_copy_rkmatrix.
Print Assumptions C23_norm2diff_rkmatrix.
Print Assumptions C24_findrank_truncmode.
