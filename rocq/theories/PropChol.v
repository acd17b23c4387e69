(** * Property C21: Cholesky and LDL^T decomposition *)
From Coq Require Import Arith NArith Lia List Bool ZArith Ring.
From Coq Require Rdefinitions R_sqrt Lra.
From Verif Require Import Fld Inst Prog View Spec Loop Factor FactorSpec FactorP FactorP4 Lr LrP LrP2 LrP3
  Chol CholSpec CholP CholP2 CholP3 CholP4 CholP5 OrdInst CholInst.
Import ListNotations.

(** [intri true false i j] says that [(i,j)] lies in the lower triangle including the
    diagonal; [tripart true false F] is the lower triangular and [tripart true true F] the
    unit lower triangular matrix stored in [F]. *)
Section C21.
Context {K : fops} (L : field_laws K) (O : rops K) (H : rlaws O).
Implicit Types (m : mem K) (A X : mat) (x : vec).
Notation low := (intri true false).

(** Only the lower triangle has to be initialised, and only the lower triangle is
    written. *)
Theorem C21_choldecomp_amatrix : forall A f m,
  mwf A -> pval m A low f -> mrows A = mcols A ->
  0 < mrows A -> (N.of_nat (mrows A) < 2 ^ 32)%N ->
  (forall j, j < mrows A -> fconj (f j j) = f j j) ->
  ends (choldecomp_amatrix O A) m (fun r m' =>
    exists F : nat -> nat -> K, pval m' A low F /\ keeps (inp A low) m m' /\
      (r = 0 ->
         (forall i j, i < mrows A -> j < mrows A ->
            mmul (mrows A) (tripart true false F) (tr true (tripart true false F)) i j = herm f i j) /\
         (forall i, i < mrows A -> fconj (F i i) = F i i /\ nonpos O (F i i) = false) /\
         posdef O (mrows A) (herm f)) /\
      (0 < r -> r <= mrows A /\ ~ posdef O r (herm f) /\ forall j, j < r -> posdef O j (herm f))).
Proof.
  intros A f m HW HA E Hn H32 Hre. apply wp_ends. apply (wp_choldecomp_amatrix L O H _ _ A f); auto.
  { intros a _. exact I. }
  intros r F m' HP HF Hk. exists F. split; [exact HF|]. split; [exact Hk|]. split.
  - intros ->. destruct (cholpost_0 L O H _ _ _ HP) as [H1 [H2 H3]]. split; [exact H1|]. split; [|exact H3].
    intros i Hi. split; apply H2, Hi.
  - intros Hr. eapply (cholpost_S L O H); eassumption.
Qed.

(** The result is 0 exactly if the matrix is positive definite. *)
Theorem C21_choldecomp_result : forall A f m,
  mwf A -> pval m A low f -> mrows A = mcols A ->
  0 < mrows A -> (N.of_nat (mrows A) < 2 ^ 32)%N ->
  (forall j, j < mrows A -> fconj (f j j) = f j j) ->
  ends (choldecomp_amatrix O A) m (fun r _ => r = 0 <-> posdef O (mrows A) (herm f)).
Proof.
  intros A f m HW HA E Hn H32 Hre.
  destruct (C21_choldecomp_amatrix A f m HW HA E Hn H32 Hre) as [r [m' [Hrun [F [_ [_ [H0 HS]]]]]]].
  exists r, m'. split; [exact Hrun|]. split.
  - intros Hr. apply H0, Hr.
  - intros HP. destruct r as [|r]; [reflexivity|].
    destruct HS as [H1 [H2 _]]; [lia|]. exfalso. apply H2. eapply (posdef_lead L); eassumption.
Qed.

(** The factor is determined by the matrix and the positive diagonal. *)
Theorem C21_chol_unique : forall n (F G f : nat -> nat -> K),
  (forall i j, i < n -> j < n -> mmul n (tripart true false F) (tr true (tripart true false F)) i j = f i j) ->
  (forall i j, i < n -> j < n -> mmul n (tripart true false G) (tr true (tripart true false G)) i j = f i j) ->
  (forall i, i < n -> fconj (F i i) = F i i /\ nonpos O (F i i) = false) ->
  (forall i, i < n -> fconj (G i i) = G i i /\ nonpos O (G i i) = false) ->
  forall i j, i < n -> j <= i -> F i j = G i j.
Proof.
  assert (S : forall n (F f : nat -> nat -> K),
    (forall i j, i < n -> j < n -> mmul n (tripart true false F) (tr true (tripart true false F)) i j = f i j) ->
    sinv n n (tripart true false F) (fun _ => f1) F f).
  { intros n F f HF i j Hi Hj. rewrite <- HF by lia. destruct (Nat.leb_spec n j); [lia|].
    unfold mmul. cbn [tr]. pose proof (rl_ring K (fl_ring K L)) as RR.
    rewrite (Ring_theory.Radd_comm RR), (Ring_theory.Radd_0_l RR).
    apply sum_ext. intros k Hk. rewrite (Ring_theory.Rmul_comm RR (tripart true false F i k) f1), (Ring_theory.Rmul_1_l RR). reflexivity. }
  intros n F G f HF HG PF PG. eapply (sinv_unique L O H n F G f); auto; intros i Hi.
  - destruct (PF i Hi); auto.
  - destruct (PG i Hi); auto.
Qed.

Theorem C21_choldecomp_not_square : forall A m, mrows A <> mcols A ->
  fails (choldecomp_amatrix O A) m EAssert /\ fails (ldltdecomp_amatrix O A) m EAssert.
Proof.
  intros A m Hn. unfold fails, choldecomp_amatrix, ldltdecomp_amatrix, passert.
  destruct (Nat.eqb_spec (mrows A) (mcols A)) as [E|_]; [contradiction|split; reflexivity].
Qed.

(** Empty matrices: the functions read an entry that does not exist. *)
Theorem C21_empty_refuted : forall A m, mrows A = 0 -> mcols A = 0 -> get m (ma A 0 0) = Free ->
  fails (choldecomp_amatrix O A) m EBounds /\ fails (ldltdecomp_amatrix O A) m EBounds.
Proof.
  intros A m Hr Hc Hg. unfold fails, choldecomp_amatrix, ldltdecomp_amatrix, passert. rewrite Hr, Hc. cbn [Nat.eqb].
  destruct upred_0 as [c ->]. cbn [chol_loop ldlt_loop]. unfold mload, pload. rewrite Nat.eqb_refl. cbn [bind run]. rewrite Hg.
  split; reflexivity.
Qed.

Theorem C21_cholsolve_amatrix_avector : forall A x F f b m,
  pval m A low F -> vval m x b -> disj (inp A low) (inv x) ->
  mrows A = mcols A -> mrows A <= vdim x ->
  (forall i j, i < mrows A -> j < mrows A ->
     mmul (mrows A) (tripart true false F) (tr true (tripart true false F)) i j = f i j) ->
  (forall i, i < mrows A -> F i i <> f0) ->
  ends (cholsolve_amatrix_avector A x) m (fun _ m' =>
    exists y : nat -> K, vval m' x y /\
      (forall i, i < mrows A -> mvec (mrows A) f y i = b i) /\
      (forall i, mrows A <= i -> i < vdim x -> y i = b i) /\ keeps (inv x) m m').
Proof.
  intros A x F f b m HA Hx Hd E Hn Hf HD. apply wp_ends.
  eapply (wp_cholsolve_amatrix_avector L) with (n := mrows A); unfold rdok, wrok; eauto 10.
Qed.

Theorem C21_cholsolve_amatrix : forall A X F f b m,
  mwf X -> pval m A low F -> mval m X b -> disj (inp A low) (inm X) ->
  mrows A = mcols A -> mrows A = mrows X ->
  (forall i j, i < mrows A -> j < mrows A ->
     mmul (mrows A) (tripart true false F) (tr true (tripart true false F)) i j = f i j) ->
  (forall i, i < mrows A -> F i i <> f0) ->
  ends (cholsolve_amatrix A X) m (fun _ m' =>
    exists Y : nat -> nat -> K, mval m' X Y /\
      (forall i k, i < mrows A -> k < mcols X -> mmul (mrows A) f Y i k = b i k) /\ keeps (inm X) m m').
Proof.
  intros A X F f b m HW HA Hx Hd E Hn Hf HD. apply wp_ends.
  eapply (wp_cholsolve_amatrix L) with (n := mrows A); unfold rdok, wrok; eauto 10.
Qed.

Theorem C21_choleval_amatrix_avector : forall A x F f g m,
  pval m A low F -> vval m x g -> disj (inp A low) (inv x) ->
  mrows A = mcols A -> mrows A <= vdim x ->
  (forall i j, i < mrows A -> j < mrows A ->
     mmul (mrows A) (tripart true false F) (tr true (tripart true false F)) i j = f i j) ->
  ends (choleval_amatrix_avector A x) m (fun _ m' =>
    vval m' x (fun i => if i <? mrows A then mvec (mrows A) f g i else g i) /\ keeps (inv x) m m').
Proof.
  intros A x F f g m HA Hx Hd E Hn Hf. apply wp_ends.
  eapply (wp_choleval_amatrix_avector L) with (n := mrows A); unfold rdok, wrok; eauto 10.
Qed.

(** Decomposition and solver together. *)
Theorem C21_chol_solve : forall A x f b m,
  mwf A -> pval m A low f -> vval m x b -> disj (inp A low) (inv x) ->
  mrows A = mcols A -> vdim x = mrows A ->
  0 < mrows A -> (N.of_nat (mrows A) < 2 ^ 32)%N ->
  (forall j, j < mrows A -> fconj (f j j) = f j j) ->
  posdef O (mrows A) (herm f) ->
  ends (r <- choldecomp_amatrix O A ;; cholsolve_amatrix_avector A x ;;; Ret r) m (fun r m' =>
    r = 0 /\
    exists y : nat -> K, vval m' x y /\
      (forall i, i < mrows A -> mvec (mrows A) (herm f) y i = b i) /\
      keeps (fun a => inp A low a \/ inv x a) m m').
Proof.
  intros A x f b m HW HA Hx Hd E Hn H0 H32 Hre HP. apply wp_ends. apply wp_bind.
  apply (wp_choldecomp_amatrix L O H _ _ A f); auto. { intros a _. exact I. }
  intros r F m1 HPo HF Hk1.
  assert (Er : r = 0).
  { destruct r as [|r]; [reflexivity|]. destruct (cholpost_S L O H _ _ _ _ HPo) as [H1 [H2 _]]; [lia|].
    exfalso. apply H2. eapply (posdef_lead L); eassumption. }
  subst r. destruct (cholpost_0 L O H _ _ _ HPo) as [H1 [H2 _]]. apply wp_bind.
  eapply (wp_cholsolve_amatrix_avector L) with (n := mrows A); unfold rdok, wrok; eauto; [|lia| |].
  { eapply vval_keeps; [exact Hx|exact Hk1|]. intros a Ha Ha'. exact (Hd a Ha' Ha). }
  { intros i Hi. apply (pos_n0 O H). apply H2, Hi. }
  intros y m2 Hy Hs _ Hk2. cbn [wp]. split; [reflexivity|].
  exists y. split; [exact Hy|]. split; [exact Hs|].
  eapply keeps_trans; (eapply keeps_mono; [|eassumption]); auto.
Qed.

(** ** LDL^T *)
Theorem C21_ldltdecomp_amatrix : forall A f m,
  mwf A -> pval m A low f -> mrows A = mcols A ->
  0 < mrows A -> (N.of_nat (mrows A) < 2 ^ 32)%N ->
  (forall j, j < mrows A -> fconj (f j j) = f j j) ->
  ends (ldltdecomp_amatrix O A) m (fun r m' =>
    exists F : nat -> nat -> K, pval m' A low F /\ keeps (inp A low) m m' /\
      (r = 0 ->
         (forall i j, i < mrows A -> j < mrows A ->
            mmul (mrows A) (tripart true true F)
              (mmul (mrows A) (diagpart F) (tr true (tripart true true F))) i j = herm f i j) /\
         (forall i, i < mrows A -> F i i <> f0 /\ fconj (F i i) = F i i) /\
         forall j, j <= mrows A -> regular j (herm f)) /\
      (0 < r -> r <= mrows A /\ singular r (herm f) /\ forall j, j < r -> regular j (herm f))).
Proof.
  intros A f m HW HA E Hn H32 Hre. apply wp_ends. apply (wp_ldltdecomp_amatrix L O H _ _ A f); auto.
  { intros a _. exact I. }
  intros r F m' HP HF Hk. exists F. split; [exact HF|]. split; [exact Hk|]. split.
  - intros ->. apply (ldltpost_0 L). exact HP.
  - intros Hr. eapply (ldltpost_S L); eassumption.
Qed.

Theorem C21_ldltsolve_amatrix_avector : forall A x F f b m,
  pval m A low F -> vval m x b -> disj (inp A low) (inv x) ->
  mrows A = mcols A -> mrows A <= vdim x ->
  (forall i j, i < mrows A -> j < mrows A ->
     mmul (mrows A) (tripart true true F)
       (mmul (mrows A) (diagpart F) (tr true (tripart true true F))) i j = f i j) ->
  (forall i, i < mrows A -> F i i <> f0) ->
  ends (ldltsolve_amatrix_avector A x) m (fun _ m' =>
    exists y : nat -> K, vval m' x y /\
      (forall i, i < mrows A -> mvec (mrows A) f y i = b i) /\
      (forall i, mrows A <= i -> i < vdim x -> y i = b i) /\ keeps (inv x) m m').
Proof.
  intros A x F f b m HA Hx Hd E Hn Hf HD. apply wp_ends.
  eapply (wp_ldltsolve_amatrix_avector L) with (n := mrows A); unfold rdok, wrok; eauto 10.
Qed.

Theorem C21_ldltsolve_amatrix : forall A X F f b m,
  mwf X -> pval m A low F -> mval m X b -> disj (inp A low) (inm X) ->
  mrows A = mcols A -> mrows A = mrows X ->
  (forall i j, i < mrows A -> j < mrows A ->
     mmul (mrows A) (tripart true true F)
       (mmul (mrows A) (diagpart F) (tr true (tripart true true F))) i j = f i j) ->
  (forall i, i < mrows A -> F i i <> f0) ->
  ends (ldltsolve_amatrix A X) m (fun _ m' =>
    exists Y : nat -> nat -> K, mval m' X Y /\
      (forall i k, i < mrows A -> k < mcols X -> mmul (mrows A) f Y i k = b i k) /\ keeps (inm X) m m').
Proof.
  intros A X F f b m HW HA Hx Hd E Hn Hf HD. apply wp_ends.
  eapply (wp_ldltsolve_amatrix L) with (n := mrows A); unfold rdok, wrok; eauto 10.
Qed.

(** ** Blocked Cholesky decomposition *)

(** The blocked variant needs the entire matrix to be initialised and may change all of
    it; it leaves the same lower triangle as the plain variant. *)
Theorem C21_blocks_agreement : forall A blocksize f m,
  mwf A -> mval m A f -> mrows A = mcols A -> 0 < mrows A -> 0 < blocksize ->
  (N.of_nat (mrows A) < 2 ^ 32)%N ->
  (N.of_nat (mrows A) * N.of_nat (mrows A / blocksize) < 2 ^ 32)%N ->
  (forall j, j < mrows A -> fconj (f j j) = f j j) ->
  ends (choldecomp_amatrix O A) m (fun r1 m1 =>
  ends (choldecomp_blocks_amatrix O A blocksize) m (fun r2 m2 =>
    keeps (inm A) m m2 /\ r1 = r2 /\
    (r1 = 0 -> forall i j, i < mrows A -> j <= i -> get m1 (ma A i j) = get m2 (ma A i j)))).
Proof.
  intros A bs f m HW HA E Hn Hb H32 Hov Hre. apply wp_ends.
  apply (wp_choldecomp_amatrix L O H _ _ A f); auto. { apply mval_pval, HA. } { intros a _. exact I. }
  intros r1 F1 m1 HP1 HF1 Hk1. apply wp_ends.
  apply (wp_choldecomp_blocks_amatrix L O H _ _ A bs f); auto. { intros a _. exact I. }
  intros r2 F2 m2 HP2 HF2 Hk2.
  destruct (cholpost_unique L O H _ _ _ _ _ _ HP1 HP2) as [Er Hu]. split; [exact Hk2|]. split; [exact Er|].
  intros H0 i j Hi Hj.
  assert (Hl : low i j) by (unfold intri; destruct (Nat.eq_dec i j); [left; auto|right; lia]).
  rewrite (HF1 i j), (HF2 i j), Hu by (try exact H0; try exact Hl; lia). reflexivity.
Qed.

Theorem C21_choldecomp_blocks_amatrix : forall A blocksize f m,
  mwf A -> mval m A f -> mrows A = mcols A -> 0 < mrows A -> 0 < blocksize ->
  (N.of_nat (mrows A) < 2 ^ 32)%N ->
  (N.of_nat (mrows A) * N.of_nat (mrows A / blocksize) < 2 ^ 32)%N ->
  (forall j, j < mrows A -> fconj (f j j) = f j j) ->
  ends (choldecomp_blocks_amatrix O A blocksize) m (fun r m' =>
    exists F : nat -> nat -> K, pval m' A low F /\ keeps (inm A) m m' /\
      (r = 0 ->
         (forall i j, i < mrows A -> j < mrows A ->
            mmul (mrows A) (tripart true false F) (tr true (tripart true false F)) i j = herm f i j) /\
         (forall i, i < mrows A -> fconj (F i i) = F i i /\ nonpos O (F i i) = false) /\
         posdef O (mrows A) (herm f)) /\
      (0 < r -> r <= mrows A /\ ~ posdef O r (herm f) /\ forall j, j < r -> posdef O j (herm f))).
Proof.
  intros A bs f m HW HA E Hn Hb H32 Hov Hre. apply wp_ends.
  apply (wp_choldecomp_blocks_amatrix L O H _ _ A bs f); auto. { intros a _. exact I. }
  intros r F m' HP HF Hk. exists F. split; [exact HF|]. split; [exact Hk|]. split.
  - intros ->. destruct (cholpost_0 L O H _ _ _ HP) as [H1 [H2 H3]]. split; [exact H1|]. split; [|exact H3].
    intros i Hi. split; apply H2, Hi.
  - intros Hr. eapply (cholpost_S L O H); eassumption.
Qed.

Theorem C21_blocksize_zero : forall A m, mrows A = mcols A -> 0 < mrows A ->
  fails (choldecomp_blocks_amatrix O A 0) m EDiv0.
Proof.
  intros A m E Hn. unfold fails, choldecomp_blocks_amatrix, passert.
  destruct (Nat.eqb_spec (mrows A) (mcols A)) as [_|N]; [|contradiction]. cbn [bind].
  destruct (Nat.leb_spec (mrows A) 0); [lia|reflexivity].
Qed.
End C21.

(** ** The blocked variant and the strict upper triangle *)

(** The product of [[1 0 0 0; 0 1 0 0; 1 0 1 0; 1 0 0 1]] and its transpose.  All pivots are
    1, the only number whose root is taken.  *)
Definition chbl : list (list Qcf) :=
  [[qz 1; qz 0; qz 1; qz 1;
    qz 0; qz 1; qz 0; qz 0;
    qz 1; qz 0; qz 2; qz 1;
    qz 1; qz 0; qz 1; qz 2]].
Definition chA : mat := Mat 0 0 4 4 4 true.
Definition chO : rops Qcf :=
  Rops Qcf (fun x => x) (fun _ => false) (fun x => negb (Qc_ltb (qz 0) x)) (fun x => if feqb x (qz 1) then qz 1 else qz 0).
(** The same matrix without the strict upper triangle. *)
Definition chm : mem Qcf :=
  Mem (fun a => if ((fst a =? 0) && (snd a mod 4 <? snd a / 4))%nat then Undef else raw (mem_of chbl) a) 1.

(** If the strict upper triangle is not initialised, the plain variant works and the
    blocked one reads an uninitialised entry. *)
Theorem C21_blocks_read_refuted : exists (O : rops Qcf) A m f r m',
  rsqrt O f1 = f1 /\
  mwf A /\ pval m A (intri true false) f /\ mrows A = mcols A /\
  run (choldecomp_amatrix O A) m = Ok (r, m') /\ r = 0 /\
  fails (choldecomp_blocks_amatrix O A 2) m EUninit.
Proof.
  exists chO, chA, chm, (mof chbl chA).
  destruct (run (choldecomp_amatrix chO chA) chm) as [[r m']|e] eqn:E.
  2:{ exfalso. assert (X : match run (choldecomp_amatrix chO chA) chm with Ok _ => true | Err _ => false end = true) by (vm_compute; reflexivity).
      rewrite E in X. discriminate. }
  exists r, m'.
  split; [vm_compute; reflexivity|]. split; [unfold mwf; cbn; lia|]. split; [|split; [reflexivity|split; [reflexivity|split]]].
  - intros i j Hi Hj Ho. cbn in Hi, Hj. unfold intri in Ho.
    do 4 (destruct i as [|i]; [do 4 (destruct j as [|j]; [first [reflexivity|exfalso; lia]|]); lia|]). lia.
  - assert (X : match run (choldecomp_amatrix chO chA) chm with Ok (a, _) => a | Err _ => 1 end = 0) by (vm_compute; reflexivity).
    rewrite E in X. exact X.
  - vm_compute. reflexivity.
Qed.

(** If it is initialised, the blocked variant changes it: here the entry in row 2 and
    column 3 is 1 before and 0 after the call. *)
Theorem C21_blocks_write_refuted : exists (O : rops Qcf) A m,
  rsqrt O f1 = f1 /\ mwf A /\ mrows A = mcols A /\ get m (ma A 2 3) = Val (qz 1) /\
  match run (choldecomp_blocks_amatrix O A 2) m with
  | Ok (r, m') => r = 0 /\ get m' (ma A 2 3) = Val (qz 0)
  | Err _ => False
  end.
Proof.
  exists chO, chA, (mem_of chbl).
  split; [vm_compute; reflexivity|]. split; [unfold mwf; cbn; lia|]. split; [reflexivity|]. split; [reflexivity|].
  vm_compute. split; reflexivity.
Qed.

(** ** Examples *)

(** The real matrix [[4 2; 2 5]], with uninitialised upper right entry, and a complex one. *)
Definition rz (z : Z) : Rf := Rdefinitions.IZR z.
Definition chR : list (list Rf) := [[rz 4; rz 2; rz 0; rz 5]; [rz 1; rz 1]].
Definition chRA : mat := Mat 0 0 2 2 2 true.
Definition chRx : vec := Vec 1 0 2 true.
Definition chRm : mem Rf := Mem (fun a => if (fst a =? 0) && (snd a =? 2) then Undef else raw (mem_of chR) a) 2.

Example C21_hyps_real :
  field_laws Rf /\ rlaws Rr /\ mwf chRA /\ pval chRm chRA (intri true false) (mof chR chRA) /\
  get chRm (ma chRA 0 1) = Undef /\
  vval chRm chRx (vof chR chRx) /\ disj (inp chRA (intri true false)) (inv chRx) /\
  (forall j, j < mrows chRA -> fconj (mof chR chRA j j) = mof chR chRA j j) /\
  posdef Rr 2 (herm (mof chR chRA)).
Proof.
  split; [exact Rf_field|]. split; [exact Rr_laws|]. split; [unfold mwf; cbn; lia|]. split; [|split; [reflexivity|split; [|split; [|split]]]].
  - intros i j Hi Hj Ho. cbn in Hi, Hj. unfold intri in Ho.
    do 2 (destruct i as [|i]; [do 2 (destruct j as [|j]; [first [reflexivity|exfalso; lia]|]); lia|]). lia.
  - intros i Hi. cbn in Hi. do 2 (destruct i as [|i]; [reflexivity|]). lia.
  - apply disj_inp, disj_mv_blk. discriminate.
  - reflexivity.
  - intros v [i [Hi Hv]]. cbn. apply negb_false_iff, R_ltb_iff.
    unfold rz. assert (N : v 0 <> f0 \/ v 1 <> f0).
    { destruct i as [|[|i]]; [left; exact Hv|right; exact Hv|lia]. }
    cbn in N. clear Hv. generalize dependent (v 0). generalize dependent (v 1). intros b a N. cbn in a, b.
    pose proof (quad_4225 a b N) as P.
    change (herm (mof chR chRA) 0 0) with (Rdefinitions.IZR 4). change (herm (mof chR chRA) 0 1) with (Rdefinitions.IZR 2).
    change (herm (mof chR chRA) 1 0) with (Rdefinitions.IZR 2). change (herm (mof chR chRA) 1 1) with (Rdefinitions.IZR 5).
    Lra.lra.
Qed.

Definition chC : list (list Cf) := [[(rz 2, rz 0); (rz 1, rz 1); (rz 7, rz 7); (rz 3, rz 0)]].
Example C21_hyps_complex :
  field_laws Cf /\ rlaws Cr /\
  mval (mem_of chC) chRA (mof chC chRA) /\
  (forall j, j < mrows chRA -> fconj (mof chC chRA j j) = mof chC chRA j j).
Proof.
  split; [exact Cf_field|]. split; [exact Cr_laws|]. split.
  - intros i j Hi Hj. cbn in Hi, Hj.
    do 2 (destruct i as [|i]; [do 2 (destruct j as [|j]; [reflexivity|]); lia|]). lia.
  - intros j Hj. cbn in Hj. do 2 (destruct j as [|j]; [cbn; unfold cx_conj; cbn; f_equal; unfold rz; Lra.lra|]). lia.
Qed.

Print Assumptions C21_choldecomp_amatrix.
Print Assumptions C21_choldecomp_result.
Print Assumptions C21_chol_unique.
Print Assumptions C21_choldecomp_not_square.
Print Assumptions C21_empty_refuted.
Print Assumptions C21_cholsolve_amatrix_avector.
Print Assumptions C21_cholsolve_amatrix.
Print Assumptions C21_choleval_amatrix_avector.
Print Assumptions C21_chol_solve.
Print Assumptions C21_ldltdecomp_amatrix.
Print Assumptions C21_ldltsolve_amatrix_avector.
Print Assumptions C21_ldltsolve_amatrix.
Print Assumptions C21_blocks_agreement.
Print Assumptions C21_choldecomp_blocks_amatrix.
Print Assumptions C21_blocksize_zero.
Print Assumptions C21_blocks_read_refuted.
Print Assumptions C21_blocks_write_refuted.
Print Assumptions C21_hyps_real.
