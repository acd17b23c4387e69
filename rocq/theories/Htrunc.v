(** * Truncation and truncated addition of low-rank matrices, Library/harith.c

    The four versions of the truncation (with QR decompositions of none, one or both of the factors)
    exist once for the truncation itself and once for the addition.  They differ in the way the
    factors are set up; the common sequences of statements are modelled once.  The versions "qb" and
    "aq" are mirror images, so they share [svd_q] and [fin_q].

    Parameters: [svd] stands for [svd_amatrix] (Library/eigensolvers.c, not modelled), [rank] for
    [findrank_truncmode] with its first two arguments (modelled in Trunc.v).  Functions that change
    the rank return the low-rank matrix with its new factors.  The macro HARITH_RKMATRIX_QUICK_EXIT
    is set and HARITH_AMATRIX_QUICK_EXIT is not, as in options.inc.default.  Vectors of reals are
    vectors of field elements. *)
From Coq Require Import Arith Lia List Bool.
From Verif Require Import Fld Prog View Avector Amatrix Factor Chol Qr Rkmatrix.
Import ListNotations.

Section Htrunc.
Context {K : fops} (O : qops K).
Context (svd : mat -> vec -> mat -> mat -> prog K unit) (rank : vec -> prog K nat).

(** The singular value decomposition of [c] with storage for the results
    (Library/harith.c:46-52, 114-118, 184-188, 263-267, 478-482, 644-650, 732-736, 821-825 and
    918-922) *)
Definition svd_of (c : mat) : prog K (mat * mat * vec) :=
  let k1 := Nat.min (mrows c) (mcols c) in
  u <- init_amatrix (mrows c) k1 ;;
  vt <- init_amatrix k1 (mcols c) ;;
  sigma <- init_avector k1 ;;
  svd c sigma u vt ;;;
  Ret (u, vt, sigma).

(** ** No QR decomposition *)

(** Library/harith.c:42-52 and 640-650: [C = A B^*] and its decomposition *)
Definition svd_ab (a b : mat) : prog K (mat * mat * mat * vec) :=
  c <- init_amatrix (mrows a) (mrows b) ;;
  clear_amatrix c ;;;
  addmul_amatrix f1 false a true b c ;;;
  s <- svd_of c ;;
  Ret (c, fst (fst s), snd (fst s), snd s).

(** Library/harith.c:60-65 and 658-663 *)
Definition fin_ab (u vt : mat) (sigma : vec) (r : rkm) : prog K unit :=
  copy_sub_amatrix false u (rk_A r) ;;;
  copy_sub_amatrix true vt (rk_B r) ;;;
  diageval_realavector_amatrix f1 true sigma true (rk_A r).

(** Library/harith.c:24-72 [trunc_ab_rkmatrix] *)
Definition trunc_ab_rkmatrix (r : rkm) : prog K rkm :=
  passert (mcols (rk_A r) =? rk_k r) ;;;
  passert (mcols (rk_B r) =? rk_k r) ;;;
  s <- svd_ab (rk_A r) (rk_B r) ;;
  let '(c, u, vt, sigma) := s in
  knew <- rank sigma ;;
  r <- setrank_rkmatrix r knew ;;
  fin_ab u vt sigma r ;;;
  uninit_avector sigma ;;;
  uninit_amatrix vt ;;;
  uninit_amatrix u ;;;
  uninit_amatrix c ;;;
  Ret r.

(** ** QR decomposition of one factor *)

(** Library/harith.c:102-118, 172-188, 720-736 and 809-825: QR decomposition of the factor [q],
    [b <- b R^*] for the other one, and the decomposition of the first columns of [b] *)
Definition svd_q (q b : mat) : prog K (vec * mat * mat * vec) :=
  tau <- init_avector (mcols q) ;;
  tau <- qrdecomp_amatrix O q tau ;;
  let kr := Nat.min (mrows q) (mcols q) in
  q1 <- init_sub_amatrix q kr 0 (mcols q) 0 ;;
  triangulareval_amatrix false false false q1 true b ;;;
  uninit_amatrix q1 ;;;
  c <- init_sub_amatrix b (mrows b) 0 kr 0 ;;
  s <- svd_of c ;;
  Ret (tau, fst (fst s), snd (fst s), snd s).

(** Library/harith.c:126-134, 196-204, 744-752 and 833-841: [x = U Sigma] and [y = Q V] for the
    factors [x] and [y] of the result *)
Definition fin_q (q : mat) (tau : vec) (u vt : mat) (sigma : vec) (x y : mat) : prog K unit :=
  copy_sub_amatrix false u x ;;;
  clear_amatrix y ;;;
  copy_sub_amatrix true vt y ;;;
  qreval_amatrix false q tau y ;;;
  uninit_avector tau ;;;
  diageval_realavector_amatrix f1 true sigma true x.

(** Library/harith.c:78-142 [trunc_qb_rkmatrix] *)
Definition trunc_qb_rkmatrix (r : rkm) : prog K rkm :=
  passert (mcols (rk_A r) =? rk_k r) ;;;
  passert (mcols (rk_B r) =? rk_k r) ;;;
  a <- init_amatrix (mrows (rk_A r)) (rk_k r) ;;
  copy_amatrix false (rk_A r) a ;;;
  s <- svd_q a (rk_B r) ;;
  let '(tau, u, vt, sigma) := s in
  knew <- rank sigma ;;
  r <- setrank_rkmatrix r knew ;;
  fin_q a tau u vt sigma (rk_B r) (rk_A r) ;;;
  uninit_avector sigma ;;;
  uninit_amatrix vt ;;;
  uninit_amatrix u ;;;
  uninit_amatrix a ;;;
  Ret r.

(** Library/harith.c:148-212 [trunc_aq_rkmatrix] *)
Definition trunc_aq_rkmatrix (r : rkm) : prog K rkm :=
  passert (mcols (rk_A r) =? rk_k r) ;;;
  passert (mcols (rk_B r) =? rk_k r) ;;;
  b <- init_amatrix (mrows (rk_B r)) (rk_k r) ;;
  copy_amatrix false (rk_B r) b ;;;
  s <- svd_q b (rk_A r) ;;
  let '(tau, u, vt, sigma) := s in
  knew <- rank sigma ;;
  r <- setrank_rkmatrix r knew ;;
  fin_q b tau u vt sigma (rk_A r) (rk_B r) ;;;
  uninit_avector sigma ;;;
  uninit_amatrix vt ;;;
  uninit_amatrix u ;;;
  uninit_amatrix b ;;;
  Ret r.

(** ** QR decompositions of both factors *)

(** Library/harith.c:243-267 and 898-922 *)
Definition svd_qq (a b : mat) : prog K (vec * vec * mat * mat * mat * vec) :=
  atau <- init_avector (mcols a) ;;
  atau <- qrdecomp_amatrix O a atau ;;
  let ak := Nat.min (mcols a) (mrows a) in
  btau <- init_avector (mcols b) ;;
  btau <- qrdecomp_amatrix O b btau ;;
  let bk := Nat.min (mcols b) (mrows b) in
  c <- init_amatrix ak bk ;;
  clear_amatrix c ;;;
  a1 <- init_sub_amatrix a ak 0 (mcols a) 0 ;;
  b1 <- init_sub_amatrix b bk 0 (mcols b) 0 ;;
  triangularaddmul_amatrix f1 false false a1 false true b1 c ;;;
  uninit_amatrix b1 ;;;
  uninit_amatrix a1 ;;;
  s <- svd_of c ;;
  Ret (atau, btau, c, fst (fst s), snd (fst s), snd s).

(** Library/harith.c:275-286 and 930-941 *)
Definition fin_qq (a : mat) (atau : vec) (b : mat) (btau : vec) (u vt : mat) (sigma : vec) (r : rkm) : prog K unit :=
  diageval_realavector_amatrix f1 true sigma true u ;;;
  clear_amatrix (rk_A r) ;;;
  copy_sub_amatrix false u (rk_A r) ;;;
  clear_amatrix (rk_B r) ;;;
  copy_sub_amatrix true vt (rk_B r) ;;;
  qreval_amatrix false a atau (rk_A r) ;;;
  qreval_amatrix false b btau (rk_B r).

(** Library/harith.c:218-297 [trunc_qq_rkmatrix] *)
Definition trunc_qq_rkmatrix (r : rkm) : prog K rkm :=
  passert (mcols (rk_A r) =? rk_k r) ;;;
  passert (mcols (rk_B r) =? rk_k r) ;;;
  a <- init_amatrix (mrows (rk_A r)) (rk_k r) ;;
  copy_amatrix false (rk_A r) a ;;;
  b <- init_amatrix (mrows (rk_B r)) (rk_k r) ;;
  copy_amatrix false (rk_B r) b ;;;
  s <- svd_qq a b ;;
  let '(atau, btau, c, u, vt, sigma) := s in
  knew <- rank sigma ;;
  r <- setrank_rkmatrix r knew ;;
  fin_qq a atau b btau u vt sigma r ;;;
  uninit_avector sigma ;;;
  uninit_amatrix vt ;;;
  uninit_amatrix u ;;;
  uninit_amatrix c ;;;
  uninit_avector btau ;;;
  uninit_avector atau ;;;
  uninit_amatrix b ;;;
  uninit_amatrix a ;;;
  Ret r.

(** Library/harith.c:299-333 [trunc_rkmatrix] *)
Definition trunc_rkmatrix (r : rkm) : prog K rkm :=
  passert (mcols (rk_A r) =? rk_k r) ;;;
  passert (mcols (rk_B r) =? rk_k r) ;;;
  if rk_k r =? 0 then Ret r else
  if rk_k r <? mrows (rk_A r) then
    if rk_k r <? mrows (rk_B r) then trunc_qq_rkmatrix r else trunc_qb_rkmatrix r
  else
    if rk_k r <? mrows (rk_B r) then trunc_aq_rkmatrix r else trunc_ab_rkmatrix r.

(** ** Addition of low-rank matrices *)

(** One of the factors [(alpha X, Y)]: Library/harith.c:617-638, 698-718, 787-807 and 876-896;
    the other one is set up with [alpha = 1], which means without scaling *)
Definition stack (alpha : K) (kx : nat) (x : mat) (ky : nat) (y : mat) (a : mat) : prog K unit :=
  a1 <- init_sub_amatrix a (mrows a) 0 kx 0 ;;
  copy_amatrix false x a1 ;;;
  (if feqb alpha f1 then Ret tt else scale_amatrix alpha a1) ;;;
  uninit_amatrix a1 ;;;
  a1 <- init_sub_amatrix a (mrows a) 0 ky kx ;;
  copy_amatrix false y a1 ;;;
  uninit_amatrix a1.

(** The two factors.  Simplification: in the code the first columns of both factors are set
    before the last columns of both. *)
Definition stack_rk (alpha : K) (src trg : rkm) : prog K (mat * mat) :=
  let k := rk_k trg + rk_k src in
  passert (mrows (rk_A src) =? mrows (rk_A trg)) ;;;
  passert (mrows (rk_B src) =? mrows (rk_B trg)) ;;;
  a <- init_amatrix (mrows (rk_A trg)) k ;;
  b <- init_amatrix (mrows (rk_B trg)) k ;;
  stack alpha (rk_k src) (rk_A src) (rk_k trg) (rk_A trg) a ;;;
  stack f1 (rk_k src) (rk_B src) (rk_k trg) (rk_B trg) b ;;;
  Ret (a, b).

(** Library/harith.c:599-672 [add_ab_rkmatrix] *)
Definition add_ab_rkmatrix (alpha : K) (src trg : rkm) : prog K rkm :=
  ab <- stack_rk alpha src trg ;;
  let '(a, b) := ab in
  s <- svd_ab a b ;;
  let '(c, u, vt, sigma) := s in
  knew <- rank sigma ;;
  trg <- setrank_rkmatrix trg knew ;;
  fin_ab u vt sigma trg ;;;
  uninit_avector sigma ;;;
  uninit_amatrix vt ;;;
  uninit_amatrix u ;;;
  uninit_amatrix c ;;;
  uninit_amatrix b ;;;
  uninit_amatrix a ;;;
  Ret trg.

(** Library/harith.c:678-761 [add_qb_rkmatrix] *)
Definition add_qb_rkmatrix (alpha : K) (src trg : rkm) : prog K rkm :=
  ab <- stack_rk alpha src trg ;;
  let '(a, b) := ab in
  s <- svd_q a b ;;
  let '(tau, u, vt, sigma) := s in
  knew <- rank sigma ;;
  trg <- setrank_rkmatrix trg knew ;;
  fin_q a tau u vt sigma (rk_B trg) (rk_A trg) ;;;
  uninit_avector sigma ;;;
  uninit_amatrix vt ;;;
  uninit_amatrix u ;;;
  uninit_amatrix b ;;;
  uninit_amatrix a ;;;
  Ret trg.

(** Library/harith.c:767-850 [add_aq_rkmatrix] *)
Definition add_aq_rkmatrix (alpha : K) (src trg : rkm) : prog K rkm :=
  ab <- stack_rk alpha src trg ;;
  let '(a, b) := ab in
  s <- svd_q b a ;;
  let '(tau, u, vt, sigma) := s in
  knew <- rank sigma ;;
  trg <- setrank_rkmatrix trg knew ;;
  fin_q b tau u vt sigma (rk_A trg) (rk_B trg) ;;;
  uninit_avector sigma ;;;
  uninit_amatrix vt ;;;
  uninit_amatrix u ;;;
  uninit_amatrix b ;;;
  uninit_amatrix a ;;;
  Ret trg.

(** Library/harith.c:856-952 [add_qq_rkmatrix] *)
Definition add_qq_rkmatrix (alpha : K) (src trg : rkm) : prog K rkm :=
  ab <- stack_rk alpha src trg ;;
  let '(a, b) := ab in
  s <- svd_qq a b ;;
  let '(atau, btau, c, u, vt, sigma) := s in
  knew <- rank sigma ;;
  trg <- setrank_rkmatrix trg knew ;;
  fin_qq a atau b btau u vt sigma trg ;;;
  uninit_avector sigma ;;;
  uninit_amatrix vt ;;;
  uninit_amatrix u ;;;
  uninit_amatrix c ;;;
  uninit_avector btau ;;;
  uninit_amatrix b ;;;
  uninit_avector atau ;;;
  uninit_amatrix a ;;;
  Ret trg.

(** Library/harith.c:956-992 [add_rkmatrix] *)
Definition add_rkmatrix (alpha : K) (src trg : rkm) : prog K rkm :=
  if rk_k src =? 0 then Ret trg else
  let k := rk_k src + rk_k trg in
  if k <? mrows (rk_A trg) then
    if k <? mrows (rk_B trg) then add_qq_rkmatrix alpha src trg else add_qb_rkmatrix alpha src trg
  else
    if k <? mrows (rk_B trg) then add_aq_rkmatrix alpha src trg else add_ab_rkmatrix alpha src trg.

(** ** Addition of a dense matrix to a low-rank matrix *)

(** Library/harith.c:371-380, 418-427 and 466-475: [z = alpha op(a) + x y^*] *)
Definition dense_sum (alpha : K) (t : bool) (a x y z : mat) : prog K unit :=
  copy_amatrix t a z ;;;
  (if feqb alpha f1 then Ret tt else scale_amatrix alpha z) ;;;
  addmul_amatrix f1 false x true y z.

(** Library/harith.c:382-391 and 429-438: QR decomposition of [z] and the decomposition of the
    triangular factor *)
Definition svd_r (z : mat) (k : nat) : prog K (vec * mat * (mat * mat * vec)) :=
  tau <- init_avector k ;;
  tau <- qrdecomp_amatrix O z tau ;;
  z1 <- init_amatrix k k ;;
  copy_upper_amatrix z false z1 ;;;
  s <- svd_of z1 ;;
  Ret (tau, z1, s).

(** Library/harith.c:339-508 [add_amatrix_rkmatrix] *)
Definition add_amatrix_rkmatrix (alpha : K) (atrans : bool) (a : mat) (b : rkm) : prog K rkm :=
  passert ((if atrans then mcols a else mrows a) =? mrows (rk_A b)) ;;;
  passert ((if atrans then mrows a else mcols a) =? mrows (rk_B b)) ;;;
  let rows := mrows (rk_A b) in
  let cols := mrows (rk_B b) in
  let k := Nat.min rows cols in
  if cols <? rows then
    z <- init_amatrix rows cols ;;
    dense_sum alpha atrans a (rk_A b) (rk_B b) z ;;;
    s <- svd_r z k ;;
    let '(tau, z1, (u, vt, sigma)) := s in
    knew <- rank sigma ;;
    b <- setrank_rkmatrix b knew ;;
    clear_amatrix (rk_A b) ;;;
    u1 <- init_sub_amatrix u k 0 knew 0 ;;
    copy_sub_amatrix false u1 (rk_A b) ;;;
    qreval_amatrix false z tau (rk_A b) ;;;
    uninit_amatrix u1 ;;;
    clear_amatrix (rk_B b) ;;;
    vt1 <- init_sub_amatrix vt knew 0 k 0 ;;
    diageval_realavector_amatrix f1 false sigma false vt1 ;;;
    copy_amatrix true vt1 (rk_B b) ;;;
    uninit_amatrix vt1 ;;;
    uninit_avector tau ;;;
    uninit_amatrix z1 ;;;
    uninit_avector sigma ;;;
    uninit_amatrix vt ;;;
    uninit_amatrix u ;;;
    uninit_amatrix z ;;;
    Ret b
  else if rows <? cols then
    z <- init_amatrix cols rows ;;
    dense_sum alpha (negb atrans) a (rk_B b) (rk_A b) z ;;;
    s <- svd_r z k ;;
    let '(tau, z1, (u, vt, sigma)) := s in
    knew <- rank sigma ;;
    b <- setrank_rkmatrix b knew ;;
    clear_amatrix (rk_A b) ;;;
    vt1 <- init_sub_amatrix vt knew 0 k 0 ;;
    copy_amatrix true vt1 (rk_A b) ;;;
    uninit_amatrix vt1 ;;;
    clear_amatrix (rk_B b) ;;;
    u1 <- init_sub_amatrix u k 0 knew 0 ;;
    diageval_realavector_amatrix f1 true sigma true u1 ;;;
    copy_sub_amatrix false u1 (rk_B b) ;;;
    qreval_amatrix false z tau (rk_B b) ;;;
    uninit_amatrix u1 ;;;
    uninit_avector tau ;;;
    uninit_amatrix z1 ;;;
    uninit_avector sigma ;;;
    uninit_amatrix vt ;;;
    uninit_amatrix u ;;;
    uninit_amatrix z ;;;
    Ret b
  else
    z <- init_amatrix rows cols ;;
    dense_sum alpha atrans a (rk_A b) (rk_B b) z ;;;
    s <- svd_of z ;;
    let '(u, vt, sigma) := s in
    knew <- rank sigma ;;
    b <- setrank_rkmatrix b knew ;;
    clear_amatrix (rk_A b) ;;;
    u1 <- init_sub_amatrix u rows 0 knew 0 ;;
    diageval_realavector_amatrix f1 true sigma true u1 ;;;
    copy_amatrix false u1 (rk_A b) ;;;
    uninit_amatrix u1 ;;;
    clear_amatrix (rk_B b) ;;;
    vt1 <- init_sub_amatrix vt knew 0 cols 0 ;;
    copy_amatrix true vt1 (rk_B b) ;;;
    uninit_amatrix vt1 ;;;
    uninit_avector sigma ;;;
    uninit_amatrix vt ;;;
    uninit_amatrix u ;;;
    uninit_amatrix z ;;;
    Ret b.
End Htrunc.

Section Exact.
Context {K : fops}.

(** Library/harith.c:514-536 [add_rkmatrix_amatrix] *)
Definition add_rkmatrix_amatrix (alpha : K) (atrans : bool) (a : rkm) (b : mat) : prog K unit :=
  if rk_k a =? 0 then Ret tt else
  if atrans then
    passert (mrows (rk_B a) =? mrows b) ;;;
    passert (mrows (rk_A a) =? mcols b) ;;;
    addmul_amatrix alpha false (rk_B a) true (rk_A a) b
  else
    passert (mrows (rk_A a) =? mrows b) ;;;
    passert (mrows (rk_B a) =? mcols b) ;;;
    addmul_amatrix alpha false (rk_A a) true (rk_B a) b.
End Exact.
