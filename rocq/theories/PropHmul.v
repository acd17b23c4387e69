(** * Property C53: products of H-matrices *)
From Coq Require Import Arith Lia List Bool Ring.
From Coq Require Import Reals Lra.
From Verif Require Import Fld Inst Ord OrdInst Prog Arr View Loop Line Spec Cluster Block BlockP Avector Amatrix AmatrixP AmatrixP2 Rkmatrix RkSpec RkP Factor FactorSpec Chol CholSpec Qr QrSpec CholInst QrInst
  CopSpec OrthoP Htrunc HtSpec HtP HtInst Hmatrix HmSpec HmP HlibSpec HaddSpec HmvP Hadd HaddP Hmul HmulP3 HmulP5 PropHadd.
Import ListNotations.
Local Open Scope nat_scope.

Section Mul.
Context {K : fops} {G : ofops} (L : field_laws K) (O : qops K) (H : qlaws O) (HZ : exact_zero O).
Context (orth : Prop) (good : nat -> (nat -> K) -> Prop) (chosen : nat -> (nat -> K) -> nat -> Prop).
Context (svd : mat -> vec -> mat -> mat -> prog K unit) (rank : vec -> prog K nat) (Hsvd : svd_ok orth good (fun _ _ => True) svd) (Hrank : rank_ok good chosen rank).
Context (Hless : forall n s k, chosen n s k -> forall l, k <= l < n -> s l = f0).
Local Notation hmx := (hmatrix G).
Implicit Types (m : mem K) (x y z : hmx) (X Y Z : nat -> nat -> K).

(** The product of two H-matrices, each of them possibly transposed, is added to a third one.  Every
    combination of dense, low-rank and subdivided matrices is possible; the matrices are split as
    their clusters are.  If truncation drops terms only if their singular value is zero, the result
    is exact; the structure of [z] is the same, and only the storage of [z] is changed. *)
Theorem C53_addmul_hmatrix : forall alpha (xtrans ytrans : bool) x y z m X Y Z,
  hrep m x X -> hrep m y Y -> hrep m z Z -> hmut m z -> hstd x -> hstd y -> hstd z -> hpos x -> hpos y ->
  hm_rc z = (if xtrans then hm_cc x else hm_rc x) -> hm_cc z = (if ytrans then hm_rc y else hm_cc y) ->
  (if xtrans then hm_rc x else hm_cc x) = (if ytrans then hm_cc y else hm_rc y) ->
  disj (inh x) (hfp z) -> disj (inh y) (hfp z) ->
  ends (addmul_hmatrix O svd rank alpha xtrans ytrans x y z) m (hpost m z (fun i j =>
    Z i j + alpha * sum (if xtrans then hrows x else hcols x) (fun q =>
      (if xtrans then fconj (X q i) else X i q) * (if ytrans then fconj (Y j q) else Y q j)))%F).
Proof.
  intros alpha xt yt x y z m X Y Z H1 H2 H3 H4 H5 H6 H7 H8 H9 H10 H11 H12 H13 H14. apply wp_ends.
  eapply (wp_addmul L O H HZ orth good chosen _ svd rank Hsvd Hrank (fun _ _ => I) Hless alpha xt yt x y z m X Y Z); try assumption.
  intros z' m' HP. eapply hpost_ext; [exact HP|]. intros i j _ _. cbv beta. f_equal. f_equal. unfold prodf. rewrite <- tcc_size. apply sum_ext. intros q _. destruct xt, yt; reflexivity.
Qed.
End Mul.

(** The hypotheses hold for the 2 x 2 block matrices of PropHadd.v: blocks with dense and low-rank
    leaves, the first one is multiplied by itself. *)
Example C53_hyps : let m := mem_of ym in
  field_laws Rf /\ qlaws (Rq (IZR 0)) /\ exact_zero (Rq (IZR 0)) /\
  svd_ok False (fun _ _ => True) (fun _ _ => True) (@triv_svd Rf) /\ rank_ok (fun _ _ => True) (fun n _ k => k = n) (@triv_rank Rf) /\
  (forall (n : nat) (s : nat -> Rf) k, k = n -> forall l, k <= l < n -> s l = f0) /\
  hrep m (yh 0) (yD 0) /\ hrep m (yh 5) (yD 5) /\ hmut m (yh 5) /\ hstd (yh 0) /\ hstd (yh 5) /\ hpos (yh 0) /\
  hm_rc (yh 5) = hm_cc (yh 0) /\ hm_cc (yh 5) = hm_rc (yh 0) /\ disj (inh (yh 0)) (hfp (yh 5)).
Proof.
  cbv zeta. destruct C52_hyps as (A1 & A2 & A3 & A4 & A5 & A6 & A7 & A8 & A9 & A10 & A11 & A12 & A13 & _).
  repeat (split; [assumption|]). split; [reflexivity|]. split; [reflexivity|]. exact A13.
Qed.

Print Assumptions C53_addmul_hmatrix.
