(** * Products of H-matrices, Library/harith.c

    [svd] and [rank] are the parameters of truncation (see Htrunc.v).  H-matrices that are changed
    are returned, as in Hadd.v. *)
From Coq Require Import Arith Lia List Bool.
From Verif Require Import Fld Ord Prog Arr View Cluster Block Avector Amatrix Factor Chol Qr Rkmatrix Htrunc Hmatrix Harith Hadd.
Import ListNotations.

Section Hmul.
Context {K : fops} {G : ofops} (O : qops K).
Context (svd : mat -> vec -> mat -> mat -> prog K unit) (rank : vec -> prog K nat).
Local Notation hmx := (hmatrix G).

(** Row and column clusters, and numbers of block rows and columns, of a matrix or its adjoint *)
Definition trc (t : bool) (x : hmx) : cptr G := if t then hm_cc x else hm_rc x.
Definition tcc (t : bool) (x : hmx) : cptr G := if t then hm_rc x else hm_cc x.
Definition trsons (t : bool) (x : hmx) : nat := if t then hm_csons x else hm_rsons x.
Definition tcsons (t : bool) (x : hmx) : nat := if t then hm_rsons x else hm_csons x.
(** Index of the submatrix in row [i] and column [j]; there are [rsons] rows and [csons] columns *)
Definition tidx (t : bool) (rsons csons i j : nat) : nat := if t then j + i * csons else i + j * rsons.

(** A low-rank matrix with [k] terms is set up and added to [z].  One factor (the left one if [left]
    is set) is set by [fill], the other one is cleared and then set by [mul]
    (Library/harith.c:2276-2291, 2295-2305, 2311-2321, 2335-2348, 2352-2362, 2368-2378 and the same
    lines in the other three functions).  If there is an identity matrix, the code sets it up before
    the factor is cleared, and deletes it after the addition; here both are part of [mul]. *)
Definition addlow (k : nat) (left : bool) (fill mul : mat -> prog K unit) (z : hmx) : prog K hmx :=
  xy <- init_rkmatrix (hrows z) (hcols z) k ;;
  fill (if left then rk_A xy else rk_B xy) ;;;
  clear_amatrix (if left then rk_B xy else rk_A xy) ;;;
  mul (if left then rk_B xy else rk_A xy) ;;;
  z <- add_rkmatrix_hmatrix O svd rank f1 z xy ;;
  uninit_rkmatrix xy ;;;
  Ret z.
(** The same for a product with the identity matrix of dimension [n] *)
Definition with_id (n : nat) (body : mat -> prog K unit) : prog K unit :=
  id <- init_amatrix n n ;;
  identity_amatrix id ;;;
  body id ;;;
  uninit_amatrix id.

(** Library/harith.c:2271-2307, 2540-2576, 2808-2844 and 3077-3113: [x] is dense *)
Definition addmul_xf (alpha : K) (xt yt : bool) (xf : mat) (y z : hmx) : prog K hmx :=
  match hm_f z with
  | Some zf => addmul_hmatrix_amatrix_amatrix (fconj alpha) (negb yt) y (negb xt) xf true zf ;;; Ret z
  | None =>
      if tcols xt xf <? trows xt xf then
        addlow (tcols xt xf) true (copy_amatrix xt xf) (fun b =>
          with_id (tcols xt xf) (fun id => addmul_hmatrix_amatrix_amatrix (fconj alpha) (negb yt) y true id false b)) z
      else
        addlow (trows xt xf) true identity_amatrix (fun b =>
          addmul_hmatrix_amatrix_amatrix (fconj alpha) (negb yt) y (negb xt) xf false b) z
  end.
(** Library/harith.c:2308-2322, 2577-2591, 2845-2859 and 3114-3128: [x] is a low-rank matrix *)
Definition addmul_xr (alpha : K) (xt yt : bool) (xr : rkm) (y z : hmx) : prog K hmx :=
  addlow (rk_k xr) true (copy_amatrix false (if xt then rk_B xr else rk_A xr)) (fun b =>
    addmul_hmatrix_amatrix_amatrix (fconj alpha) (negb yt) y false (if xt then rk_A xr else rk_B xr) false b) z.
(** Library/harith.c:2326-2363, 2595-2632, 2863-2900 and 3132-3168: [y] is dense *)
Definition addmul_yf (alpha : K) (xt yt : bool) (x : hmx) (yf : mat) (z : hmx) : prog K hmx :=
  match hm_f z with
  | Some zf => addmul_hmatrix_amatrix_amatrix alpha xt x yt yf false zf ;;; Ret z
  | None =>
      if trows yt yf <? tcols yt yf then
        addlow (trows yt yf) false (copy_amatrix (negb yt) yf) (fun a =>
          with_id (trows yt yf) (fun id => addmul_hmatrix_amatrix_amatrix alpha xt x false id false a)) z
      else
        addlow (tcols yt yf) false identity_amatrix (fun a =>
          addmul_hmatrix_amatrix_amatrix alpha xt x yt yf false a) z
  end.
(** Library/harith.c:2364-2378, 2633-2647, 2901-2915 and 3169-3183: [y] is a low-rank matrix *)
Definition addmul_yr (alpha : K) (xt yt : bool) (x : hmx) (yr : rkm) (z : hmx) : prog K hmx :=
  addlow (rk_k yr) false (copy_amatrix false (if yt then rk_A yr else rk_B yr)) (fun a =>
    addmul_hmatrix_amatrix_amatrix alpha xt x false (if yt then rk_B yr else rk_A yr) false a) z.

(** The product for the submatrix [z] in row [i] and column [k]: the loops over [j].  [rec] contains
    the functions multiplying submatrices of [x] by other matrices. *)
Definition mulrow (xt yt : bool) (rec : option (list (hmx -> hmx -> prog K hmx))) (ly : option (list hmx)) (rsons msons csons i k : nat) (z : hmx) : prog K hmx :=
  forS 0 msons (fun j z =>
    go <- sget rec (tidx xt rsons msons i j) ;;
    y <- sget ly (tidx yt msons csons j k) ;;
    go y z) z.

(** The loops over the submatrices of [z] (Library/harith.c:2492-2497, 2506-2511 and the same lines
    in the other functions) *)
Definition mulsons (xt yt : bool) (rec : option (list (hmx -> hmx -> prog K hmx))) (ly : option (list hmx)) (rsons msons csons : nat) (z : hmx) : prog K hmx :=
  match hm_son z with
  | None => Fail ENull
  | Some l =>
      l <- forS 0 csons (fun k (l : list hmx) => forS 0 rsons (fun i (l : list hmx) =>
             s <- sget (Some l) (i + k * rsons) ;;
             s <- mulrow xt yt rec ly rsons msons csons i k s ;;
             Ret (lupd l (i + k * rsons) s)) l) l ;;
      Ret (set_sons z l)
  end.

(** The loops over the parts of the dense matrix [zf] (Library/harith.c:2389-2485 and the same lines
    in the other functions).  The code distinguishes four cases, depending on which of the clusters
    are split; if a cluster is not split, there is only one part, and it is the whole matrix: here
    this is a submatrix, too. *)
Definition mulparts (xt yt : bool) (rec : option (list (hmx -> hmx -> prog K hmx))) (ly : option (list hmx)) (rsons msons csons : nat)
    (rc cc : cptr G) (rsplit csplit : bool) (zf : mat) : prog K unit :=
  passert (csplit || (csons =? 1)) ;;;
  passert (rsplit || (rsons =? 1)) ;;;
  coff <- forS 0 csons (fun k coff =>
    ck <- (if csplit then lift (cp_son cc k) else Ret cc) ;;
    roff <- forS 0 rsons (fun i roff =>
      ri <- (if rsplit then lift (cp_son rc i) else Ret rc) ;;
      zf1 <- init_sub_amatrix zf (csz ri) roff (csz ck) coff ;;
      mulrow xt yt rec ly rsons msons csons i k (HM ri ck None (Some zf1) None 0 0 0) ;;;
      uninit_amatrix zf1 ;;;
      Ret (roff + csz ri)) 0 ;;
    passert (roff =? csz rc) ;;;
    Ret (coff + csz ck)) 0 ;;
  passert (coff =? csz cc).

(** Library/harith.c:2246-2513 [addmul_nn_hmatrix], 2515-2783 [addmul_nt_hmatrix], 2784-3051
    [addmul_tn_hmatrix] and 3053-3319 [addmul_tt_hmatrix]: the four functions are the same up to the
    adjoints of [x] and [y], which are arguments here.  (Library/harith.c:3321-3337
    [addmul_hmatrix] selects the function.) *)
Fixpoint addmul_hmatrix (alpha : K) (xt yt : bool) (x y z : hmx) : prog K hmx :=
  passert (cp_eqb (hm_rc z) (trc xt x)) ;;;
  passert (cp_eqb (hm_cc z) (tcc yt y)) ;;;
  passert (cp_eqb (tcc xt x) (trc yt y)) ;;;
  match x with
  | HM _ _ xr xf xson _ _ _ =>
      match xf with
      | Some xf => addmul_xf alpha xt yt xf y z
      | None =>
      match xr with
      | Some xr => addmul_xr alpha xt yt xr y z
      | None =>
          passert (match xson with Some _ => true | None => false end) ;;;
          match hm_f y with
          | Some yf => addmul_yf alpha xt yt x yf z
          | None =>
          match hm_r y with
          | Some yr => addmul_yr alpha xt yt x yr z
          | None =>
              passert (match hm_son y with Some _ => true | None => false end) ;;;
              passert (tcsons xt x =? trsons yt y) ;;;
              let rsons := trsons xt x in
              let msons := tcsons xt x in
              let csons := tcsons yt y in
              let rec := match xson with Some l => Some (map (addmul_hmatrix alpha xt yt) l) | None => None end in
              x0 <- sget xson 0 ;;
              y0 <- sget (hm_son y) 0 ;;
              let rsplit := negb (cp_eqb (trc xt x0) (trc xt x)) in
              let csplit := negb (cp_eqb (tcc yt y0) (tcc yt y)) in
              match hm_f z with
              | Some zf => mulparts xt yt rec (hm_son y) rsons msons csons (hm_rc z) (hm_cc z) rsplit csplit zf ;;; Ret z
              | None =>
              match hm_r z with
              | Some zr =>
                  ztmp <- split_rkmatrix zr (hm_rc z) (hm_cc z) rsplit csplit false ;;
                  ztmp <- mulsons xt yt rec (hm_son y) rsons msons csons ztmp ;;
                  xy <- merge_hmatrix_rkmatrix O svd rank ztmp ;;
                  zr <- add_rkmatrix O svd rank f1 xy zr ;;
                  uninit_rkmatrix xy ;;;
                  del_hmatrix ztmp ;;;
                  Ret (set_r z zr)
              | None => mulsons xt yt rec (hm_son y) rsons msons csons z
              end
              end
          end
          end
      end
      end
  end.
End Hmul.
