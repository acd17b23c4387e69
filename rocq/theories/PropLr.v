(** * Properties C19 and C20: LR decomposition *)
From Coq Require Import Arith NArith Lia List Bool ZArith Ring.
From Verif Require Import Fld Inst Prog View Spec Loop Factor FactorSpec FactorP FactorP4 Lr LrP LrP2 LrP3.
Import ListNotations.

(** [tripart true true F] and [tripart false false F] are the unit lower and the
    upper triangular matrix stored in [F]. *)
Section C19.
Context {K : fops} (L : field_laws K).
Implicit Types (m : mem K) (A X : mat) (x : vec).

(** The result is 0 or the order of the smallest singular leading block. *)
Theorem C19_lrdecomp_amatrix : forall A f m,
  mwf A -> mval m A f -> mrows A = mcols A ->
  0 < mrows A -> (N.of_nat (mrows A) < 2 ^ 32)%N ->
  ends (lrdecomp_amatrix A) m (fun r m' =>
    exists F : nat -> nat -> K, mval m' A F /\ keeps (inm A) m m' /\
      (r = 0 ->
         (forall i j, i < mrows A -> j < mrows A ->
            mmul (mrows A) (tripart true true F) (tripart false false F) i j = f i j) /\
         (forall i, i < mrows A -> F i i <> f0) /\
         forall j, j <= mrows A -> regular j f) /\
      (0 < r -> r <= mrows A /\ singular r f /\ forall j, j < r -> regular j f)).
Proof.
  intros A f m HW HA E Hn H32. apply wp_ends. apply (wp_lrdecomp_amatrix L _ _ A f); auto.
  { intros a _. exact I. }
  intros r F m' HP HF Hk. exists F. split; [exact HF|]. split; [exact Hk|]. split.
  - intros ->. apply (lrpost_0 L). exact HP.
  - intros Hr. eapply (lrpost_S L); eassumption.
Qed.

(** The decomposition exists exactly if all leading blocks are regular. *)
Theorem C19_lrdecomp_result : forall A f m,
  mwf A -> mval m A f -> mrows A = mcols A ->
  0 < mrows A -> (N.of_nat (mrows A) < 2 ^ 32)%N ->
  ends (lrdecomp_amatrix A) m (fun r _ => r = 0 <-> forall j, j <= mrows A -> regular j f).
Proof.
  intros A f m HW HA E Hn H32.
  destruct (C19_lrdecomp_amatrix A f m HW HA E Hn H32) as [r [m' [Hrun [F [_ [_ [H0 HS]]]]]]].
  exists r, m'. split; [exact Hrun|]. split.
  - intros Hr. apply H0, Hr.
  - intros Hreg. destruct r as [|r]; [reflexivity|].
    destruct HS as [H1 [H2 _]]; [lia|]. exfalso. eapply regular_singular; [apply Hreg, H1|exact H2].
Qed.

Theorem C19_lrdecomp_not_square : forall A m, mrows A <> mcols A -> fails (lrdecomp_amatrix A) m EAssert.
Proof.
  intros A m H. unfold fails, lrdecomp_amatrix, passert.
  destruct (Nat.eqb_spec (mrows A) (mcols A)) as [E|_]; [contradiction|reflexivity].
Qed.

(** The factorization of an empty matrix reads an entry that does not exist: it
    fails if the memory behind the coefficient pointer is not allocated. *)
Theorem C19_empty_refuted : forall A m, mrows A = 0 -> mcols A = 0 -> get m (ma A 0 0) = Free ->
  fails (lrdecomp_amatrix A) m EBounds.
Proof.
  intros A m Hr Hc Hg. unfold fails, lrdecomp_amatrix, passert. rewrite Hr, Hc. cbn [Nat.eqb].
  destruct upred_0 as [c ->]. cbn [lr_loop]. unfold mload, pload. rewrite Nat.eqb_refl. cbn [bind run]. rewrite Hg. reflexivity.
Qed.

(** Solving with the factors, for [A x = b] and [A^* x = b]. *)
Theorem C19_lrsolve_amatrix_avector : forall (t : bool) A x F f b m,
  mval m A F -> vval m x b -> disj (inm A) (inv x) ->
  mrows A = mcols A -> mrows A <= vdim x ->
  (forall i j, i < mrows A -> j < mrows A ->
     mmul (mrows A) (tripart true true F) (tripart false false F) i j = f i j) ->
  (forall i, i < mrows A -> F i i <> f0) ->
  ends (lrsolve_amatrix_avector t A x) m (fun _ m' =>
    exists y : nat -> K, vval m' x y /\
      (forall i, i < mrows A -> mvec (mrows A) (tr t f) y i = b i) /\
      (forall i, mrows A <= i -> i < vdim x -> y i = b i) /\ keeps (inv x) m m').
Proof.
  intros t A x F f b m HA Hx Hd E Hn Hf HD. apply wp_ends.
  eapply (wp_lrsolve_amatrix_avector L) with (n := mrows A); unfold rdok, wrok; eauto 10.
Qed.

Theorem C19_lrsolve_amatrix : forall A X F f b m,
  mwf X -> mval m A F -> mval m X b -> disj (inm A) (inm X) ->
  mrows A = mcols A -> mrows A <= mrows X ->
  (forall i j, i < mrows A -> j < mrows A ->
     mmul (mrows A) (tripart true true F) (tripart false false F) i j = f i j) ->
  (forall i, i < mrows A -> F i i <> f0) ->
  ends (lrsolve_amatrix A X) m (fun _ m' =>
    exists Y : nat -> nat -> K, mval m' X Y /\
      (forall i k, i < mrows A -> k < mcols X -> mmul (mrows A) f Y i k = b i k) /\
      (forall i k, mrows A <= i -> i < mrows X -> k < mcols X -> Y i k = b i k) /\
      keeps (inm X) m m').
Proof.
  intros A X F f b m HW HA Hx Hd E Hn Hf HD. apply wp_ends.
  eapply (wp_lrsolve_amatrix L) with (n := mrows A); unfold rdok, wrok; eauto 10.
Qed.

Theorem C19_lreval_amatrix_avector : forall (t : bool) A x F f g m,
  mval m A F -> vval m x g -> disj (inm A) (inv x) ->
  mrows A = mcols A -> mrows A <= vdim x ->
  (forall i j, i < mrows A -> j < mrows A ->
     mmul (mrows A) (tripart true true F) (tripart false false F) i j = f i j) ->
  ends (lreval_amatrix_avector t A x) m (fun _ m' =>
    vval m' x (fun i => if i <? mrows A then mvec (mrows A) (tr t f) g i else g i) /\
    keeps (inv x) m m').
Proof.
  intros t A x F f g m HA Hx Hd E Hn Hf. apply wp_ends.
  eapply (wp_lreval_amatrix_avector L) with (n := mrows A); unfold rdok, wrok; eauto 10.
Qed.

(** Decomposition and solver together: if all leading blocks of the matrix are regular,
    the linear system given by the matrix is solved. *)
Theorem C19_decomp_solve : forall (t : bool) A x f b m,
  mwf A -> mval m A f -> vval m x b -> disj (inm A) (inv x) ->
  mrows A = mcols A -> vdim x = mrows A ->
  0 < mrows A -> (N.of_nat (mrows A) < 2 ^ 32)%N ->
  (forall j, j <= mrows A -> regular j f) ->
  ends (r <- lrdecomp_amatrix A ;; lrsolve_amatrix_avector t A x ;;; Ret r) m (fun r m' =>
    r = 0 /\
    exists y : nat -> K, vval m' x y /\
      (forall i, i < mrows A -> mvec (mrows A) (tr t f) y i = b i) /\
      keeps (fun a => inm A a \/ inv x a) m m').
Proof.
  intros t A x f b m HW HA Hx Hd E Hn H0 H32 Hreg. apply wp_ends. apply wp_bind.
  apply (wp_lrdecomp_amatrix L _ _ A f); auto. { intros a _. exact I. }
  intros r F m1 HP HF Hk1.
  assert (Er : r = 0).
  { destruct r as [|r]; [reflexivity|]. destruct (lrpost_S L _ _ _ _ HP) as [H1 [H2 _]]; [lia|].
    exfalso. eapply regular_singular; [apply Hreg, H1|exact H2]. }
  subst r. destruct (lrpost_0 L _ _ _ HP) as [H1 [H2 _]]. apply wp_bind.
  eapply (wp_lrsolve_amatrix_avector L) with (n := mrows A); unfold rdok, wrok; eauto; [|lia|].
  { eapply vval_keeps; [exact Hx|exact Hk1|]. intros a Ha Ha'. exact (Hd a Ha' Ha). }
  intros y m2 Hy Hs _ Hk2. cbn [wp]. split; [reflexivity|].
  exists y. split; [exact Hy|]. split; [exact Hs|].
  eapply keeps_trans; (eapply keeps_mono; [|eassumption]); auto.
Qed.

(** ** C20 *)

(** The blocks [[n*k/blocks, n*(k+1)/blocks)] are non-empty and partition the index
    range as long as the 32-bit products do not wrap around. *)
Theorem C20_blocks : forall n blocks,
  0 < blocks -> blocks <= n -> (N.of_nat n * N.of_nat blocks < 2 ^ 32)%N ->
  blockoff n blocks 0 = 0 /\ blockoff n blocks blocks = n /\
  forall k, k < blocks -> blockoff n blocks k < blockoff n blocks (k + 1).
Proof. intros n B HB Hn Hov. exact (blockoff_good n B HB Hn Hov). Qed.

(** They do wrap around for large matrices: offsets can decrease, and different blocks
    coincide. *)
Theorem C20_blocks_refuted : exists n blocksize k l,
  (N.of_nat n < 2 ^ 32)%N /\ 0 < blocksize /\ blocksize < n /\
  k < l /\ l < n / blocksize /\
  blockoff n (n / blocksize) (k + 1) < blockoff n (n / blocksize) k /\
  blockoff n (n / blocksize) l = 0.
Proof.
  exists (Nat.pow 2 17), 1, (Nat.pow 2 15 - 1), (Nat.pow 2 15). rewrite Nat.div_1_r.
  repeat split; try (apply Nat.ltb_lt; vm_compute; reflexivity); vm_compute; reflexivity.
Qed.

Theorem C20_lrdecomp_blocks_amatrix : forall A blocksize f m,
  mwf A -> mval m A f -> mrows A = mcols A -> 0 < mrows A -> 0 < blocksize ->
  (N.of_nat (mrows A) < 2 ^ 32)%N ->
  (N.of_nat (mrows A) * N.of_nat (mrows A / blocksize) < 2 ^ 32)%N ->
  ends (lrdecomp_blocks_amatrix A blocksize) m (fun r m' =>
    exists F : nat -> nat -> K, mval m' A F /\ keeps (inm A) m m' /\
      (r = 0 ->
         (forall i j, i < mrows A -> j < mrows A ->
            mmul (mrows A) (tripart true true F) (tripart false false F) i j = f i j) /\
         (forall i, i < mrows A -> F i i <> f0) /\
         forall j, j <= mrows A -> regular j f) /\
      (0 < r -> r <= mrows A /\ singular r f /\ forall j, j < r -> regular j f)).
Proof.
  intros A bs f m HW HA E Hn Hb H32 Hov. apply wp_ends. apply (wp_lrdecomp_blocks_amatrix L _ _ A bs f); auto.
  { intros a _. exact I. }
  intros r F m' HP HF Hk. exists F. split; [exact HF|]. split; [exact Hk|]. split.
  - intros ->. apply (lrpost_0 L). exact HP.
  - intros Hr. eapply (lrpost_S L); eassumption.
Qed.

(** Run on the same matrix, both functions return the same number, and if it is 0 they
    leave the same matrix. *)
Theorem C20_agreement : forall A blocksize f m,
  mwf A -> mval m A f -> mrows A = mcols A -> 0 < mrows A -> 0 < blocksize ->
  (N.of_nat (mrows A) < 2 ^ 32)%N ->
  (N.of_nat (mrows A) * N.of_nat (mrows A / blocksize) < 2 ^ 32)%N ->
  ends (lrdecomp_amatrix A) m (fun r1 m1 =>
  ends (lrdecomp_blocks_amatrix A blocksize) m (fun r2 m2 =>
    r1 = r2 /\
    (r1 = 0 -> forall i j, i < mrows A -> j < mcols A -> get m1 (ma A i j) = get m2 (ma A i j)))).
Proof.
  intros A bs f m HW HA E Hn Hb H32 Hov. apply wp_ends.
  apply (wp_lrdecomp_amatrix L _ _ A f); auto. { intros a _. exact I. }
  intros r1 F1 m1 HP1 HF1 Hk1. apply wp_ends.
  apply (wp_lrdecomp_blocks_amatrix L _ _ A bs f); auto. { intros a _. exact I. }
  intros r2 F2 m2 HP2 HF2 Hk2.
  destruct (lrpost_unique L _ _ _ _ _ _ HP1 HP2) as [Er Hu]. split; [exact Er|].
  intros H0 i j Hi Hj. rewrite (HF1 i j Hi Hj), (HF2 i j Hi Hj), Hu by (try exact H0; lia). reflexivity.
Qed.

Theorem C20_not_square : forall A blocksize m, mrows A <> mcols A ->
  fails (lrdecomp_blocks_amatrix A blocksize) m EAssert.
Proof.
  intros A bs m H. unfold fails, lrdecomp_blocks_amatrix, passert.
  destruct (Nat.eqb_spec (mrows A) (mcols A)) as [E|_]; [contradiction|reflexivity].
Qed.

Theorem C20_blocksize_zero : forall A m, mrows A = mcols A -> 0 < mrows A ->
  fails (lrdecomp_blocks_amatrix A 0) m EDiv0.
Proof.
  intros A m E H. unfold fails, lrdecomp_blocks_amatrix, passert.
  destruct (Nat.eqb_spec (mrows A) (mcols A)) as [_|N]; [|contradiction]. cbn [bind].
  destruct (Nat.leb_spec (mrows A) 0); [lia|reflexivity].
Qed.
End C19.

(** ** Examples *)

(** A 5 x 5 matrix with leading dimension 6.
    With block size 2 there are two blocks of sizes 2 and 3. *)
Definition lrbl : list (list GQf) :=
  [[gq 2 1; gq 1 0; gq 0 1; gq 3 0; gq 1 1; gq 0 0;
    gq 1 0; gq 4 0; gq 1 2; gq 0 0; gq 2 0; gq 0 0;
    gq 0 0; gq 1 1; gq 5 0; gq 1 0; gq 0 3; gq 0 0;
    gq 1 0; gq 2 0; gq 1 0; gq 7 1; gq 1 0; gq 0 0;
    gq 3 0; gq 0 0; gq 2 2; gq 1 0; gq 9 0; gq 0 0];
   [gq 1 2; gq 3 4; gq 5 6; gq 7 8; gq 9 10]].
Definition lrA : mat := Mat 0 0 6 5 5 true.
Definition lrx : vec := Vec 1 0 5 true.
Definition lrm : mem GQf := mem_of lrbl.

Example C19_hyps :
  mwf lrA /\ mval lrm lrA (mof lrbl lrA) /\ vval lrm lrx (vof lrbl lrx) /\ disj (inm lrA) (inv lrx) /\
  mrows lrA = mcols lrA /\ vdim lrx = mrows lrA /\ 0 < mrows lrA /\ (N.of_nat (mrows lrA) < 2 ^ 32)%N /\
  (N.of_nat (mrows lrA) * N.of_nat (mrows lrA / 2) < 2 ^ 32)%N.
Proof.
  repeat match goal with |- _ /\ _ => split end; try reflexivity.
  - unfold mwf; cbn; lia.
  - intros i j Hi Hj. cbn in Hi, Hj.
    do 5 (destruct i as [|i]; [do 5 (destruct j as [|j]; [reflexivity|]); lia|]). lia.
  - intros i Hi. cbn in Hi. do 5 (destruct i as [|i]; [reflexivity|]). lia.
  - apply disj_mv_blk. discriminate.
  - cbn; lia.
Qed.

(** All leading blocks of this matrix are regular, since the decomposition returns 0. *)
Example C19_regular : forall j, j <= mrows lrA -> regular j (mof lrbl lrA).
Proof.
  destruct C19_hyps as [H1 [H2 [_ [_ [H3 [_ [H4 [H5 _]]]]]]]].
  destruct (C19_lrdecomp_result GQf_field lrA _ lrm H1 H2 H3 H4 H5) as [r [m' [Hr HE]]].
  apply HE.
  assert (E : match run (lrdecomp_amatrix lrA) lrm with Ok (a, _) => a | Err _ => 1 end = 0) by (vm_compute; reflexivity).
  rewrite Hr in E. exact E.
Qed.

Example C19_empty_hyps : get lrm (ma (Mat 2 0 0 0 0 true) 0 0) = Free.
Proof. reflexivity. Qed.

(** The 2 x 2 leading block of a matrix with zero second pivot. *)
Definition lrs : list (list GQf) := [[gq 1 1; gq 2 0; gq 2 2; gq 4 0]].
Example C19_singular :
  match run (lrdecomp_amatrix (Mat 0 0 2 2 2 true)) (mem_of lrs) with Ok (a, _) => a | Err _ => 0 end = 2.
Proof. vm_compute. reflexivity. Qed.

Print Assumptions C19_lrdecomp_amatrix.
Print Assumptions C19_lrdecomp_result.
Print Assumptions C19_lrdecomp_not_square.
Print Assumptions C19_empty_refuted.
Print Assumptions C19_lrsolve_amatrix_avector.
Print Assumptions C19_lrsolve_amatrix.
Print Assumptions C19_lreval_amatrix_avector.
Print Assumptions C19_decomp_solve.
Print Assumptions C20_blocks.
Print Assumptions C20_blocks_refuted.
Print Assumptions C20_lrdecomp_blocks_amatrix.
Print Assumptions C20_agreement.
Print Assumptions C20_not_square.
Print Assumptions C20_blocksize_zero.
