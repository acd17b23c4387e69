(** * Model of the GMRES method of Library/krylov.c and Library/krylovsolvers.c

    The preconditioned variants init_pgmres, step_pgmres and finish_pgmres repeat the code of
    init_gmres, step_gmres and finish_gmres and call the preconditioner after each call of
    [addeval]; both are modelled by functions with an optional preconditioner.

    The dimension [*kk] of the Krylov space is a value of type [option nat], [None] for an
    uninitialised variable. *)
From Coq Require Import Arith List Bool.
From Verif Require Import Fld Prog View Avector Amatrix Factor Lr Chol Qr Krylov.

Section Gmres.
Context {K : fops} (O : qops K).

(** [REAL_RSQRT] (Library/settings.h) *)
Definition rrsqrt (x : K) : K := (f1 / rsqrt O x)%F.

(** The cosine, the sine and the encoding [rho] of the rotation computed by [findapply_givens]
    (Library/krylov.c:560-579). *)
Definition givens_find (aa bb : K) : K * K * K :=
  if gtb O (abssqr aa) (abssqr bb) then
    let t := (bb / aa)%F in
    let c := rrsqrt (abssqr t + f1)%F in
    let s := (t * c)%F in
    (c, s, s)
  else if gtb O (abssqr bb) (abssqr aa) then
    let t := (aa / bb)%F in
    let s := rrsqrt (abssqr t + f1)%F in
    let c := (t * s)%F in
    (c, s, (f1 / c)%F)
  else (f1, f0, f1).
(** Library/krylov.c:552-585 [findapply_givens] *)
Definition findapply_givens (a b : addr) : prog K K :=
  aa <- pload a ;;
  bb <- pload b ;;
  let '(c, s, rho) := givens_find aa bb in
  pstore a (c * aa + s * bb)%F ;;;
  pstore b f0 ;;;
  Ret rho.

(** The cosine and sine reconstructed by [apply_givens] (Library/krylov.c:594-605). *)
Definition givens_cs (rho : K) : K * K :=
  if gtb O f1 (abssqr rho) then
    let s := rho in (rsqrt O (f1 - abssqr s)%F, s)
  else if gtb O (abssqr rho) f1 then
    let c := (f1 / rho)%F in (c, rsqrt O (f1 - abssqr c)%F)
  else (f1, f0).
(** Library/krylov.c:587-609 [apply_givens] *)
Definition apply_givens (rho : K) (a b : addr) : prog K unit :=
  aa <- pload a ;;
  bb <- pload b ;;
  let '(c, s) := givens_cs rho in
  pstore a (c * aa + s * bb)%F ;;;
  pstore b (c * bb - s * aa)%F.

(** Library/krylov.c:611-656 [init_gmres] and 829-878 [init_pgmres] *)
Definition init_gmres (addeval : addeval_t K) (prcd : option (prcd_t K)) (b x rhat q : vec) (kk : option nat) (qr : mat) (tau : vec)
  : prog K (option nat) :=
  let kmax := mcols qr in
  passert (vdim b =? vdim x) ;;;
  passert (vdim b =? vdim q) ;;;
  passert (vdim b =? mrows qr) ;;;
  passert (kmax <=? vdim tau) ;;;
  if kmax <? 1 then Ret kk else
  r <- init_column_avector qr 0 ;;
  copy_avector b r ;;;
  addeval (fopp f1) x r ;;;
  may_prcd prcd r ;;;
  uninit_avector r ;;;
  qr_k <- init_sub_amatrix qr (mrows qr) 0 1 0 ;;
  _ <- qrdecomp_amatrix O qr_k tau ;;
  clear_avector q ;;;
  vstore q 0 f1 ;;;
  qreval_amatrix_avector false qr_k tau q ;;;
  uninit_amatrix qr_k ;;;
  clear_avector rhat ;;;
  v <- mload qr 0 0 ;;
  vstore rhat 0 v ;;;
  Ret (Some 0).

(** Library/krylov.c:658-722 [step_gmres] and 880-952 [step_pgmres].  The vector [a] is used
    after [uninit_avector], which has no effect on a column of a matrix. *)
Definition step_gmres (addeval : addeval_t K) (prcd : option (prcd_t K)) (b x rhat q : vec) (kk : option nat) (qr : mat) (tau : vec)
  : prog K (option nat) :=
  match kk with None => Fail EUninit | Some k =>
  let kmax := mcols qr in
  if kmax <=? k + 1 then Ret kk else
  a <- init_column_avector qr (k + 1) ;;
  clear_avector a ;;;
  addeval f1 q a ;;;
  may_prcd prcd a ;;;
  uninit_avector a ;;;
  qr_k <- init_sub_amatrix qr (mrows qr) 0 (k + 1) 0 ;;
  qreval_amatrix_avector true qr_k tau a ;;;
  uninit_amatrix qr_k ;;;
  qr_k <- init_sub_amatrix qr (mrows qr - (k + 1)) (k + 1) 1 (k + 1) ;;
  tau_k <- init_sub_avector tau 1 (k + 1) ;;
  _ <- qrdecomp_amatrix O qr_k tau_k ;;
  uninit_avector tau_k ;;;
  uninit_amatrix qr_k ;;;
  qr_k <- init_sub_amatrix qr (mrows qr) 0 (k + 2) 0 ;;
  clear_avector q ;;;
  vstore q (k + 1) f1 ;;;
  qreval_amatrix_avector false qr_k tau q ;;;
  uninit_amatrix qr_k ;;;
  for_ 0 k (fun i =>
    rho <- mload qr (i + 1) (i + 1) ;;
    apply_givens rho (ma qr i (k + 1)) (ma qr (i + 1) (k + 1))) ;;;
  rho <- findapply_givens (ma qr k (k + 1)) (ma qr (k + 1) (k + 1)) ;;
  mstore qr (k + 1) (k + 1) rho ;;;
  apply_givens rho (va rhat k) (va rhat (k + 1)) ;;;
  Ret (Some (k + 1))
  end.

(** Library/krylov.c:724-763 [finish_gmres] and 954-985 [finish_pgmres] *)
Definition finish_gmres (addeval : addeval_t K) (prcd : option (prcd_t K)) (b x rhat q : vec) (kk : option nat) (qr : mat) (tau : vec)
  : prog K (option nat) :=
  match kk with None => Fail EUninit | Some k =>
  rhat_k <- init_sub_avector rhat k 0 ;;
  qr_k <- init_sub_amatrix qr k 0 k 1 ;;
  triangularsolve_amatrix_avector false false false qr_k rhat_k ;;;
  uninit_amatrix qr_k ;;;
  uninit_avector rhat_k ;;;
  rhat_k <- init_sub_avector rhat (vdim rhat - k) k ;;
  clear_avector rhat_k ;;;
  uninit_avector rhat_k ;;;
  qr_k <- init_sub_amatrix qr (mrows qr) 0 k 0 ;;
  qreval_amatrix_avector false qr_k tau rhat ;;;
  uninit_amatrix qr_k ;;;
  add_avector f1 rhat x ;;;
  init_gmres addeval prcd b x rhat q (Some k) qr tau
  end.

(** Library/krylov.c:765-769 [residualnorm_gmres] and 987-991 [residualnorm_pgmres] (the latter
    takes the absolute value of a real number) *)
Definition residualnorm_gmres (rhat : vec) (kk : option nat) : prog K K :=
  match kk with None => Fail EUninit | Some k => v <- vload rhat k ;; Ret (fabs O v) end.

(** The loop [while (error > eps * norm && iter + 1 != maxiter)] (Library/krylovsolvers.c:208-218
    and 297-307) *)
Fixpoint gmres_loop (addeval : addeval_t K) (prcd : option (prcd_t K)) (b x rhat q : vec) (qr : mat) (tau : vec)
  (bound : K) (cnt : nat) (error : K) (iter : nat) (kk : option nat) : prog K (nat * option nat) :=
  match cnt with
  | 0 => Ret (iter, kk)
  | S cnt' =>
    if gtb O error bound then
      kk <- (match kk with
             | None => Fail EUninit
             | Some k => if mcols qr <=? k + 1 then finish_gmres addeval prcd b x rhat q kk qr tau else Ret kk
             end) ;;
      kk <- step_gmres addeval prcd b x rhat q kk qr tau ;;
      e <- residualnorm_gmres rhat kk ;;
      gmres_loop addeval prcd b x rhat q qr tau bound cnt' e (iter + 1) kk
    else Ret (iter, kk)
  end.

(** Library/krylovsolvers.c:182-229 [solve_gmres_avector] *)
Definition solve_gmres_avector (addeval : addeval_t K) (b x : vec) (eps : K) (maxiter kmax : nat) : prog K nat :=
  let n := vdim x in
  passert (vdim b =? n) ;;;
  rhat <- init_avector n ;;
  r <- init_avector n ;;
  q <- init_avector n ;;
  qr <- init_amatrix n kmax ;;
  tau <- init_avector kmax ;;
  norm <- norm2_avector (rsqrt O) b ;;
  kk <- init_gmres addeval None b x rhat q None qr tau ;;
  error <- residualnorm_gmres rhat kk ;;
  ik <- gmres_loop addeval None b x rhat q qr tau (eps * norm)%F (upred maxiter) error 0 kk ;;
  _ <- finish_gmres addeval None b x rhat q (snd ik) qr tau ;;
  uninit_avector tau ;;;
  uninit_amatrix qr ;;;
  uninit_avector q ;;;
  uninit_avector r ;;;
  uninit_avector rhat ;;;
  Ret (fst ik).

(** Library/krylovsolvers.c:267-323 [solve_pgmres_avector] *)
Definition solve_pgmres_avector (addeval : addeval_t K) (prcd : prcd_t K) (b x : vec) (eps : K) (maxiter kmax : nat) : prog K nat :=
  let n := vdim x in
  passert (vdim b =? n) ;;;
  rhat <- init_avector n ;;
  r <- init_avector n ;;
  q <- init_avector n ;;
  qr <- init_amatrix n kmax ;;
  tau <- init_avector kmax ;;
  copy_avector b r ;;;
  prcd r ;;;
  norm <- norm2_avector (rsqrt O) r ;;
  kk <- init_gmres addeval (Some prcd) b x rhat q None qr tau ;;
  error <- residualnorm_gmres rhat kk ;;
  ik <- gmres_loop addeval (Some prcd) b x rhat q qr tau (eps * norm)%F (upred maxiter) error 0 kk ;;
  (match snd ik with
   | None => Fail EUninit
   | Some k => if 0 <? k then _ <- finish_gmres addeval (Some prcd) b x rhat q (snd ik) qr tau ;; Ret tt else Ret tt
   end) ;;;
  uninit_avector tau ;;;
  uninit_amatrix qr ;;;
  uninit_avector q ;;;
  uninit_avector r ;;;
  uninit_avector rhat ;;;
  Ret (fst ik).
End Gmres.
