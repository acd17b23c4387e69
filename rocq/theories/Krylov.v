(** * krylov.c and krylovsolvers.c: Krylov subspace methods

    Model of /repo/Library/krylov.c and /repo/Library/krylovsolvers.c.  The pairs of a
    callback and its data pointer (addeval_t and matrix, mvm_t and matrix, prcd_t and pdata;
    Library/krylov.h:30-70) are modelled by one function each.  A null pointer for a
    preconditioner is [None].  Field arithmetic is exact.  Division by zero gives the value
    [finv] assigns to zero, where the code gets an infinite or undefined number. *)
From Coq Require Import Arith NArith List Bool.
From Verif Require Import Fld Prog View Avector Amatrix Factor Lr Chol Qr.

Section Krylov.
Context {K : fops}.

(** [addeval(alpha, matrix, x, y)] *)
Definition addeval_t : Type := K -> vec -> vec -> prog K unit.
(** [mvm(alpha, trans, matrix, x, y)] *)
Definition mvm_t : Type := K -> bool -> vec -> vec -> prog K unit.
(** [prcd(pdata, r)] *)
Definition prcd_t : Type := vec -> prog K unit.

(** [if (prcd) prcd(pdata, q)] (Library/krylov.c:226-227, 255-256, 359-360, 402-403) *)
Definition may_prcd (prcd : option prcd_t) (q : vec) : prog K unit :=
  match prcd with Some f => f q | None => Ret tt end.

(** Library/krylov.c:162-172 [init_cg] *)
Definition init_cg (addeval : addeval_t) (b x r p a : vec) : prog K unit :=
  copy_avector b r ;;;
  addeval (fopp f1) x r ;;;
  copy_avector r p.

(** Library/krylov.c:174-195 [step_cg] *)
Definition step_cg (addeval : addeval_t) (b x r p a : vec) : prog K unit :=
  clear_avector a ;;;
  addeval f1 p a ;;;
  gamma <- dotprod_avector p a ;;
  d <- dotprod_avector p r ;;
  let lambda := (d / gamma)%F in
  add_avector lambda p x ;;;
  add_avector (fopp lambda) a r ;;;
  e <- dotprod_avector a r ;;
  let mu := (e / gamma)%F in
  scale_avector (fopp mu) p ;;;
  add_avector f1 r p.

(** Library/krylov.c:197-205 [evalfunctional_cg]; the result is converted to a real number *)
Definition evalfunctional_cg (O : rops K) (b x r : vec) : prog K K :=
  d <- dotprod_avector r x ;;
  e <- dotprod_avector b x ;;
  Ret (re O (fopp (f1 / (f1 + f1)) * (d + e))%F).

(** Library/krylov.c:211-230 [init_pcg] *)
Definition init_pcg (addeval : addeval_t) (prcd : option prcd_t) (b x r q p a : vec) : prog K unit :=
  copy_avector b r ;;;
  addeval (fopp f1) x r ;;;
  copy_avector r q ;;;
  may_prcd prcd q ;;;
  copy_avector q p.

(** Library/krylov.c:232-262 [step_pcg] *)
Definition step_pcg (addeval : addeval_t) (prcd : option prcd_t) (b x r q p a : vec) : prog K unit :=
  clear_avector a ;;;
  addeval f1 p a ;;;
  gamma <- dotprod_avector p a ;;
  d <- dotprod_avector p r ;;
  let lambda := (d / gamma)%F in
  add_avector lambda p x ;;;
  add_avector (fopp lambda) a r ;;;
  copy_avector r q ;;;
  may_prcd prcd q ;;;
  e <- dotprod_avector a q ;;
  let mu := (e / gamma)%F in
  scale_avector (fopp mu) p ;;;
  add_avector f1 q p.

(** Library/krylov.c:268-288 [init_uzawa] *)
Definition init_uzawa (solve_A11 : prcd_t) (mvm_A21 : mvm_t) (b1 b2 x1 x2 r2 p2 a1 s2 : vec) : prog K unit :=
  copy_avector b1 x1 ;;;
  mvm_A21 (fopp f1) true x2 x1 ;;;
  solve_A11 x1 ;;;
  clear_avector r2 ;;;
  mvm_A21 f1 false x1 r2 ;;;
  add_avector (fopp f1) b2 r2 ;;;
  copy_avector r2 p2.

(** Library/krylov.c:290-330 [step_uzawa] *)
Definition step_uzawa (solve_A11 : prcd_t) (mvm_A21 : mvm_t) (b1 b2 x1 x2 r2 p2 a1 s2 : vec) : prog K unit :=
  clear_avector a1 ;;;
  mvm_A21 f1 true p2 a1 ;;;
  solve_A11 a1 ;;;
  clear_avector s2 ;;;
  mvm_A21 f1 false a1 s2 ;;;
  gamma <- dotprod_avector s2 p2 ;;
  d <- dotprod_avector p2 r2 ;;
  let lambda := (d / gamma)%F in
  add_avector lambda p2 x2 ;;;
  add_avector (fopp lambda) s2 r2 ;;;
  add_avector (fopp lambda) a1 x1 ;;;
  e <- dotprod_avector s2 r2 ;;
  let mu := (e / fconj gamma)%F in
  scale_avector (fopp mu) p2 ;;;
  add_avector f1 r2 p2.

(** Library/krylov.c:336-364 [init_puzawa] *)
Definition init_puzawa (solve_A11 : prcd_t) (mvm_A21 : mvm_t) (prcd : option prcd_t)
  (b1 b2 x1 x2 r2 q2 p2 a1 s2 : vec) : prog K unit :=
  copy_avector b1 x1 ;;;
  mvm_A21 (fopp f1) true x2 x1 ;;;
  solve_A11 x1 ;;;
  clear_avector r2 ;;;
  mvm_A21 f1 false x1 r2 ;;;
  add_avector (fopp f1) b2 r2 ;;;
  copy_avector r2 q2 ;;;
  may_prcd prcd q2 ;;;
  copy_avector q2 p2.

(** Library/krylov.c:366-414 [step_puzawa] *)
Definition step_puzawa (solve_A11 : prcd_t) (mvm_A21 : mvm_t) (prcd : option prcd_t)
  (b1 b2 x1 x2 r2 q2 p2 a1 s2 : vec) : prog K unit :=
  clear_avector a1 ;;;
  mvm_A21 f1 true p2 a1 ;;;
  solve_A11 a1 ;;;
  clear_avector s2 ;;;
  mvm_A21 f1 false a1 s2 ;;;
  gamma <- dotprod_avector s2 p2 ;;
  d <- dotprod_avector p2 r2 ;;
  let lambda := (d / gamma)%F in
  add_avector lambda p2 x2 ;;;
  add_avector (fopp lambda) s2 r2 ;;;
  copy_avector r2 q2 ;;;
  may_prcd prcd q2 ;;;
  add_avector (fopp lambda) a1 x1 ;;;
  e <- dotprod_avector s2 q2 ;;
  let mu := (e / fconj gamma)%F in
  scale_avector (fopp mu) p2 ;;;
  add_avector f1 q2 p2.

(** Library/krylov.c:423-444 [init_bicg] *)
Definition init_bicg (addeval addevaltrans : addeval_t) (b x r rt p pt a at_ : vec) : prog K unit :=
  copy_avector b r ;;;
  addeval (fopp f1) x r ;;;
  copy_avector r rt ;;;
  copy_avector r p ;;;
  copy_avector rt pt.

(** Library/krylov.c:446-482 [step_bicg] *)
Definition step_bicg (addeval addevaltrans : addeval_t) (b x r rt p pt a at_ : vec) : prog K unit :=
  clear_avector a ;;;
  addeval f1 p a ;;;
  clear_avector at_ ;;;
  addevaltrans f1 pt at_ ;;;
  gamma <- dotprod_avector a pt ;;
  mu <- dotprod_avector r rt ;;
  let alpha := (mu / gamma)%F in
  add_avector alpha p x ;;;
  add_avector (fopp alpha) a r ;;;
  add_avector (fopp alpha) at_ rt ;;;
  d <- dotprod_avector r rt ;;
  let beta := (d / mu)%F in
  scale_avector beta p ;;;
  add_avector f1 r p ;;;
  scale_avector beta pt ;;;
  add_avector f1 rt pt.

(** Library/krylov.c:492-509 [init_bicgstab] *)
Definition init_bicgstab (addeval : addeval_t) (b x r rt p a as_ : vec) : prog K unit :=
  copy_avector b r ;;;
  addeval (fopp f1) x r ;;;
  copy_avector r rt ;;;
  copy_avector r p.

(** Library/krylov.c:511-546 [step_bicgstab] *)
Definition step_bicgstab (addeval : addeval_t) (b x r rt p a as_ : vec) : prog K unit :=
  clear_avector a ;;;
  addeval f1 p a ;;;
  mu <- dotprod_avector r rt ;;
  d <- dotprod_avector a rt ;;
  let alpha := (mu / d)%F in
  add_avector (fopp alpha) a r ;;;
  clear_avector as_ ;;;
  addeval f1 r as_ ;;;
  e1 <- dotprod_avector as_ r ;;
  e2 <- dotprod_avector as_ as_ ;;
  let omega := (e1 / e2)%F in
  add_avector alpha p x ;;;
  add_avector omega r x ;;;
  add_avector (fopp omega) as_ r ;;;
  g <- dotprod_avector r rt ;;
  let beta := (g / mu * alpha / omega)%F in
  scale_avector beta p ;;;
  add_avector f1 r p ;;;
  add_avector (fopp beta * omega)%F a p.

(** ** The solvers of krylovsolvers.c *)
Variable O : qops K.

(** The loop [while (error > eps * norm && iter + 1 != maxiter)] of the solvers
    (Library/krylovsolvers.c:39-44, 121-126), [cnt] more iterations until [iter + 1] equals [maxiter]. *)
Fixpoint kry_loop (step : prog K unit) (r : vec) (bound : K) (cnt : nat) (error : K) (iter : nat) : prog K nat :=
  match cnt with
  | 0 => Ret iter
  | S cnt' =>
    if gtb O error bound
    then step ;;; e <- norm2_avector (rsqrt O) r ;; kry_loop step r bound cnt' e (iter + 1)
    else Ret iter
  end.

(** Library/krylovsolvers.c:17-51 [solve_cg_avector]; the number of iterations after which
    [iter + 1 != maxiter] fails for the first time is [maxiter - 1] modulo 2^32. *)
Definition solve_cg_avector (addeval : addeval_t) (b x : vec) (eps : K) (maxiter : nat) : prog K nat :=
  let n := vdim x in
  passert (vdim b =? n) ;;;
  r <- init_avector n ;;
  p <- init_avector n ;;
  a <- init_avector n ;;
  norm <- norm2_avector (rsqrt O) b ;;
  init_cg addeval b x r p a ;;;
  error <- norm2_avector (rsqrt O) r ;;
  iter <- kry_loop (step_cg addeval b x r p a) r (eps * norm)%F (upred maxiter) error 0 ;;
  uninit_avector a ;;;
  uninit_avector p ;;;
  uninit_avector r ;;;
  Ret iter.

(** Library/krylovsolvers.c:98-134 [solve_pcg_avector] *)
Definition solve_pcg_avector (addeval : addeval_t) (prcd : option prcd_t) (b x : vec) (eps : K) (maxiter : nat) : prog K nat :=
  let n := vdim x in
  passert (vdim b =? n) ;;;
  r <- init_avector n ;;
  q <- init_avector n ;;
  p <- init_avector n ;;
  a <- init_avector n ;;
  norm <- norm2_avector (rsqrt O) b ;;
  init_pcg addeval prcd b x r q p a ;;;
  error <- norm2_avector (rsqrt O) r ;;
  iter <- kry_loop (step_pcg addeval prcd b x r q p a) r (eps * norm)%F (upred maxiter) error 0 ;;
  uninit_avector a ;;;
  uninit_avector p ;;;
  uninit_avector q ;;;
  uninit_avector r ;;;
  Ret iter.

(** Library/krylovsolvers.c:53-59 [solve_cg_amatrix_avector] *)
Definition solve_cg_amatrix_avector (A : mat) (b x : vec) (eps : K) (maxiter : nat) : prog K nat :=
  solve_cg_avector (fun alpha x y => addeval_amatrix_avector alpha A x y) b x eps maxiter.

(** Library/krylovsolvers.c:136-142 [solve_pcg_amatrix_avector] *)
Definition solve_pcg_amatrix_avector (A : mat) (prcd : option prcd_t) (b x : vec) (eps : K) (maxiter : nat) : prog K nat :=
  solve_pcg_avector (fun alpha x y => addeval_amatrix_avector alpha A x y) prcd b x eps maxiter.
End Krylov.
Arguments addeval_t : clear implicits. Arguments mvm_t : clear implicits. Arguments prcd_t : clear implicits.
