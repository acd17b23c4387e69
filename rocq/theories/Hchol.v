(** * Cholesky factorizations of H-matrices, Library/harith.c

    [svd] and [rank] are the parameters of truncation (see Htrunc.v).  H-matrices that are changed
    are returned, as in Hadd.v. *)
From Coq Require Import Arith Lia List Bool.
From Verif Require Import Fld Ord Prog Arr View Cluster Block Avector Amatrix Factor Chol Qr Rkmatrix Htrunc Hmatrix Harith Hadd Hmul Hfac.
Import ListNotations.

Section Hchol.
Context {K : fops} {G : ofops} (O : qops K).
Context (svd : mat -> vec -> mat -> mat -> prog K unit) (rank : vec -> prog K nat).
Local Notation hmx := (hmatrix G).

(** ** Updates of the lower triangular part *)

(** A part of a matrix, provided by [part], is added to the block [b1] by [go]
    (Library/harith.c:1081-1090, 1097-1106, 1205-1210 and 1217-1223) *)
Definition addpart {A} (part : nat -> nat -> nat -> nat -> prog K A) (done : A -> prog K unit) (go : hmx -> A -> prog K hmx) (roff coff : nat) (b1 : hmx) : prog K hmx :=
  a1 <- part (hrows b1) roff (hcols b1) coff ;;
  b1 <- go b1 a1 ;;
  done a1 ;;;
  Ret b1.

(** The loops over the submatrices in [add_lower_amatrix_hmatrix] (Library/harith.c:1070-1114) and
    [add_lower_rkmatrix_hmatrix] (Library/harith.c:1194-1231): [rec] contains the functions for the
    diagonal blocks, [go] is used below the diagonal.  [l] are the submatrices of the target. *)
Definition addlowsons {A} (part : nat -> nat -> nat -> nat -> prog K A) (done : A -> prog K unit)
    (rec : option (list (hmx -> A -> prog K hmx))) (go : hmx -> A -> prog K hmx) (rc cc : cptr G) (sons : nat) (l : list hmx) : prog K (list hmx) :=
  lc <- forS 0 sons (fun j (lc : list hmx * nat) =>
    let coff := snd lc in
    roff <- forS 0 j (fun i roff => b1 <- sget (Some (fst lc)) (i + j * sons) ;; Ret (roff + hrows b1)) 0 ;;
    lr <- forS j (sons - j) (fun i (lr : list hmx * nat) =>
      let roff := snd lr in
      b1 <- sget (Some (fst lr)) (i + j * sons) ;;
      f <- (if i =? j then sget rec (i + j * sons) else Ret go) ;;
      b1 <- addpart part done f roff coff b1 ;;
      Ret (lupd (fst lr) (i + j * sons) b1, roff + hrows b1)) (fst lc, roff) ;;
    passert (snd lr =? csz rc) ;;;
    bj <- sget (Some (fst lr)) (j * sons) ;;
    Ret (fst lr, coff + hcols bj)) (l, 0) ;;
  passert (snd lc =? csz cc) ;;;
  Ret (fst lc).

(** Library/harith.c:1044-1116 [add_lower_amatrix_hmatrix].  The functions for the diagonal blocks
    are found by recursion over [shape], which has the same structure as [b]. *)
Fixpoint add_lower_amatrix_h (alpha : K) (atrans : bool) (shape b : hmx) (a : mat) : prog K hmx :=
  passert (cp_eqb (hm_rc b) (hm_cc b)) ;;;
  match hm_f b with
  | Some f => add_amatrix alpha atrans a f ;;; Ret b
  | None =>
      match hm_son b with
      | None => Fail EAssert
      | Some l =>
          passert (hm_rsons b =? hm_csons b) ;;;
          let rec := match shape with HM _ _ _ _ (Some ls) _ _ _ => Some (map (add_lower_amatrix_h alpha atrans) ls) | _ => None end in
          l <- addlowsons (fun rows roff cols coff => if atrans then init_sub_amatrix a cols coff rows roff else init_sub_amatrix a rows roff cols coff)
                 uninit_amatrix rec (add_amatrix_hmatrix O svd rank alpha atrans) (hm_rc b) (hm_cc b) (hm_rsons b) l ;;
          Ret (set_sons b l)
      end
  end.
Definition add_lower_amatrix_hmatrix (alpha : K) (atrans : bool) (a : mat) (b : hmx) : prog K hmx := add_lower_amatrix_h alpha atrans b b a.

(** Library/harith.c:1168-1233 [add_lower_rkmatrix_hmatrix] *)
Fixpoint add_lower_rkmatrix_h (alpha : K) (shape b : hmx) (a : rkm) : prog K hmx :=
  passert (cp_eqb (hm_rc b) (hm_cc b)) ;;;
  if rk_k a =? 0 then Ret b else
  match hm_f b with
  | Some f => add_rkmatrix_amatrix alpha false a f ;;; Ret b
  | None =>
      match hm_son b with
      | None => Fail EAssert
      | Some l =>
          passert (hm_rsons b =? hm_csons b) ;;;
          let rec := match shape with HM _ _ _ _ (Some ls) _ _ _ => Some (map (add_lower_rkmatrix_h alpha) ls) | _ => None end in
          l <- addlowsons (init_sub_rkmatrix a) uninit_rkmatrix rec (add_rkmatrix_hmatrix O svd rank alpha) (hm_rc b) (hm_cc b) (hm_rsons b) l ;;
          Ret (set_sons b l)
      end
  end.
Definition add_lower_rkmatrix_hmatrix (alpha : K) (a : rkm) (b : hmx) : prog K hmx := add_lower_rkmatrix_h alpha b b a.

(** ** Lower triangular parts of products *)

(** The product is computed in a dense matrix (Library/harith.c:3358-3364, 3380-3386, 3405-3410 and
    3426-3431) *)
Definition lowfull (alpha : K) (rows cols : nat) (mul : mat -> prog K unit) (z : hmx) : prog K hmx :=
  mf <- init_amatrix rows cols ;;
  clear_amatrix mf ;;;
  mul mf ;;;
  z <- add_lower_amatrix_hmatrix alpha false mf z ;;
  uninit_amatrix mf ;;;
  Ret z.
(** The product is computed in a low-rank matrix with [k] terms.  If [left] is set, the left factor
    is a copy (Library/harith.c:3368-3374, 3390-3396, 3449-3456 and 3460-3467), otherwise the right
    one is (3414-3420, 3435-3441, 3474-3481 and 3485-3492). *)
Definition lowrk (alpha : K) (rows cols k : nat) (left : bool) (cp mul : mat -> prog K unit) (z : hmx) : prog K hmx :=
  mr <- init_rkmatrix rows cols k ;;
  (if left then cp (rk_A mr) ;;; clear_amatrix (rk_B mr) ;;; mul (rk_B mr)
   else clear_amatrix (rk_A mr) ;;; mul (rk_A mr) ;;; cp (rk_B mr)) ;;;
  z <- add_lower_rkmatrix_hmatrix alpha mr z ;;
  uninit_rkmatrix mr ;;;
  Ret z.

(** Library/harith.c:3353-3399: [x] is dense *)
Definition lower_xf (alpha : K) (xt yt : bool) (xf : mat) (y z : hmx) : prog K hmx :=
  if trows xt xf <=? tcols xt xf then
    lowfull alpha (trows xt xf) (csz (tcc yt y)) (addmul_hmatrix_amatrix_amatrix f1 (negb yt) y (negb xt) xf true) z
  else
    lowrk alpha (trows xt xf) (csz (tcc yt y)) (tcols xt xf) true (copy_amatrix xt xf) (add_hmatrix_amatrix f1 (negb yt) y) z.
(** Library/harith.c:3400-3444: [y] is dense *)
Definition lower_yf (alpha : K) (xt yt : bool) (x : hmx) (yf : mat) (z : hmx) : prog K hmx :=
  if tcols yt yf <=? trows yt yf then
    lowfull alpha (csz (trc xt x)) (tcols yt yf) (addmul_hmatrix_amatrix_amatrix f1 xt x yt yf false) z
  else
    lowrk alpha (csz (trc xt x)) (tcols yt yf) (trows yt yf) false (copy_amatrix (negb yt) yf) (add_hmatrix_amatrix f1 xt x) z.
(** Library/harith.c:3445-3469: [x] is a low-rank matrix *)
Definition lower_xr (alpha : K) (xt yt : bool) (x : hmx) (xr : rkm) (y z : hmx) : prog K hmx :=
  lowrk alpha (csz (trc xt x)) (csz (tcc yt y)) (rk_k xr) true (copy_amatrix false (if xt then rk_B xr else rk_A xr))
    (addmul_hmatrix_amatrix_amatrix f1 (negb yt) y false (if xt then rk_A xr else rk_B xr) false) z.
(** Library/harith.c:3470-3494: [y] is a low-rank matrix *)
Definition lower_yr (alpha : K) (xt yt : bool) (x y : hmx) (yr : rkm) (z : hmx) : prog K hmx :=
  lowrk alpha (csz (trc xt x)) (csz (tcc yt y)) (rk_k yr) false (copy_amatrix false (if yt then rk_A yr else rk_B yr))
    (addmul_hmatrix_amatrix_amatrix f1 xt x false (if yt then rk_B yr else rk_A yr) false) z.

(** The block below the diagonal in row [i] and column [j]: the loop over [k].  If only [x] is
    transposed, the code uses the submatrix in row [j] and column [k] of [y] instead of the one in row
    [k] and column [j] (Library/harith.c:3543). *)
Definition lowrow (alpha : K) (xt yt : bool) (lx ly : option (list hmx)) (sons msons i j : nat) (z : hmx) : prog K hmx :=
  forS 0 msons (fun k z =>
    x1 <- sget lx (tidx xt sons msons i k) ;;
    y1 <- sget ly (if xt && negb yt then j + k * msons else tidx yt msons sons k j) ;;
    addmul_hmatrix O svd rank alpha xt yt x1 y1 z) z.
(** The diagonal block: the loop over [k] *)
Definition diagrow (xt yt : bool) (rec : option (list (hmx -> hmx -> prog K hmx))) (ly : option (list hmx)) (sons msons i : nat) (z : hmx) : prog K hmx :=
  mulrow xt yt rec ly sons msons sons i i z.

(** The loops over the blocks of [z] (Library/harith.c:3520-3531, 3539-3550, 3561-3572 and
    3580-3591) *)
Definition lowsons (alpha : K) (xt yt : bool) (rec : option (list (hmx -> hmx -> prog K hmx))) (lx ly : option (list hmx)) (sons msons : nat) (z : hmx) : prog K hmx :=
  match hm_son z with
  | None => Fail ENull
  | Some l =>
      l <- forS 0 sons (fun i (l : list hmx) =>
        l <- forS 0 i (fun j (l : list hmx) =>
          s <- sget (Some l) (i + j * sons) ;;
          s <- lowrow alpha xt yt lx ly sons msons i j s ;;
          Ret (lupd l (i + j * sons) s)) l ;;
        s <- sget (Some l) (i + i * sons) ;;
        s <- diagrow xt yt rec ly sons msons i s ;;
        Ret (lupd l (i + i * sons) s)) l ;;
      Ret (set_sons z l)
  end.
(** Library/harith.c:3509-3518 and the same assertions for the other cases, and the loops *)
Definition lowcheck (alpha : K) (xt yt : bool) (rec : option (list (hmx -> hmx -> prog K hmx))) (x y z : hmx) : prog K hmx :=
  passert (hm_rsons z =? hm_csons z) ;;;
  passert (trsons xt x =? hm_rsons z) ;;;
  passert (tcsons xt x =? trsons yt y) ;;;
  passert (tcsons yt y =? hm_csons z) ;;;
  lowsons alpha xt yt rec (hm_son x) (hm_son y) (hm_rsons z) (tcsons xt x) z.

(** Library/harith.c:3339-3598 [addmul_lower_hmatrix] *)
Fixpoint addmul_lower_hmatrix (alpha : K) (xt yt : bool) (x y z : hmx) : prog K hmx :=
  passert (cp_eqb (hm_rc z) (hm_cc z)) ;;;
  match x with
  | HM _ _ xr xf xson _ _ _ =>
      match xf with
      | Some xf => lower_xf alpha xt yt xf y z
      | None =>
      match hm_f y with
      | Some yf => lower_yf alpha xt yt x yf z
      | None =>
      match xr with
      | Some xr => lower_xr alpha xt yt x xr y z
      | None =>
      match hm_r y with
      | Some yr => lower_yr alpha xt yt x y yr z
      | None =>
          passert (match xson with Some _ => true | None => false end) ;;;
          passert (match hm_son y with Some _ => true | None => false end) ;;;
          let rec := match xson with Some l => Some (map (addmul_lower_hmatrix alpha xt yt) l) | None => None end in
          match hm_son z with
          | Some _ => lowcheck alpha xt yt rec x y z
          | None =>
              match hm_f z with
              | None => Fail EAssert
              | Some zf =>
                  x0 <- sget xson 0 ;;
                  y0 <- sget (hm_son y) 0 ;;
                  ztmp <- split_sub_amatrix zf (hm_rc z) (hm_cc z) (negb (cp_eqb (trc xt x0) (trc xt x))) (negb (cp_eqb (tcc yt y0) (tcc yt y))) ;;
                  ztmp <- lowcheck alpha xt yt rec x y ztmp ;;
                  del_hmatrix ztmp ;;;
                  Ret z
              end
          end
      end
      end
      end
      end
  end.

(** ** Cholesky factorization *)

(** One step of Library/harith.c:6269-6305 [choldecomp_hmatrix].  [l] are the submatrices of [a] *)
Definition cholstep (sons k : nat) (go : hmx -> prog K hmx) (l : list hmx) : prog K (list hmx) :=
  akk <- sget (Some l) (k + k * sons) ;;
  akk <- go akk ;;
  let l := lupd l (k + k * sons) akk in
  l <- forS (k + 1) (sons - (k + 1)) (fun i (l : list hmx) =>
    aik <- sget (Some l) (i + k * sons) ;;
    aik <- triangularinvmul_hmatrix O svd rank true false false akk true aik ;;
    Ret (lupd l (i + k * sons) aik)) l ;;
  forS (k + 1) (sons - (k + 1)) (fun j (l : list hmx) =>
    ajk <- sget (Some l) (j + k * sons) ;;
    ajj <- sget (Some l) (j + j * sons) ;;
    ajj <- addmul_lower_hmatrix (- (1))%F false true ajk ajk ajj ;;
    forS (j + 1) (sons - (j + 1)) (fun i (l : list hmx) =>
      aik <- sget (Some l) (i + k * sons) ;;
      aij <- sget (Some l) (i + j * sons) ;;
      aij <- addmul_hmatrix O svd rank (- (1))%F false true aik ajk aij ;;
      Ret (lupd l (i + j * sons) aij)) (lupd l (j + j * sons) ajj)) l.
Fixpoint choldecomp_h (shape a : hmx) : prog K hmx :=
  passert (cp_eqb (hm_rc a) (hm_cc a)) ;;;
  match hm_f a with
  | Some f =>
      res <- choldecomp_amatrix O f ;;
      passert (res =? 0) ;;;
      Ret a
  | None =>
      match hm_son a with
      | None => Fail EAssert
      | Some l =>
          passert (hm_rsons a =? hm_csons a) ;;;
          let sons := hm_rsons a in
          let rec := match shape with HM _ _ _ _ (Some ls) _ _ _ => Some (map choldecomp_h ls) | _ => None end in
          l <- forS 0 sons (fun k (l : list hmx) =>
            go <- sget rec (k + k * sons) ;;
            cholstep sons k go l) l ;;
          Ret (set_sons a l)
      end
  end.
Definition choldecomp_hmatrix (a : hmx) : prog K hmx := choldecomp_h a a.
End Hchol.
