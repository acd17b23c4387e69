(** * Triangular solves with H-matrices and factorizations of H-matrices, Library/harith.c

    [svd] and [rank] are the parameters of truncation (see Htrunc.v).  H-matrices that are changed
    are returned, as in Hadd.v.  The functions recurse over the submatrices of the matrix that they
    change; here they recurse over [shape], the same matrix at the beginning of the outermost call,
    since the subdivision does not change. *)
From Coq Require Import Arith Lia List Bool.
From Verif Require Import Fld Ord Prog Arr View Cluster Block Avector Amatrix Factor Chol Qr Lr Rkmatrix Htrunc Hmatrix Harith Hadd Hmul.
Import ListNotations.

Section Hfac.
Context {K : fops} {G : ofops} (O : qops K).
Context (svd : mat -> vec -> mat -> mat -> prog K unit) (rank : vec -> prog K nat).
Local Notation hmx := (hmatrix G).

(** The block with number [t] in the order of forward ([i = 0, 1, ...]) or backward substitution
    ([i = sons - 1, sons - 2, ...]) *)
Definition ord (fwd : bool) (sons t : nat) : nat := if fwd then t else sons - 1 - t.
(** The block [xj] is changed by the product of the block [aji] and the block [xi]: one call of
    [addmul_hmatrix] in the loops below *)
Definition updson (alpha : K) (atrans xtrans : bool) (aji xi xj : hmx) : prog K hmx :=
  if xtrans then addmul_hmatrix O svd rank alpha false (negb atrans) xi aji xj
  else addmul_hmatrix O svd rank alpha atrans false aji xi xj.

(** The loops over [j] in Library/harith.c:4484-4487, 4503-4506 and the same lines in the other
    functions: all blocks that come after block [t] are changed.  [la] are the submatrices of [a],
    [l] those of [xp]; [R] and [C] are the numbers of block rows and columns of [xp] (or its adjoint). *)
Definition updcol (alpha : K) (fwd atrans xtrans : bool) (la : option (list hmx)) (sons R C k t : nat) (l : list hmx) : prog K (list hmx) :=
  forS (t + 1) (sons - (t + 1)) (fun u (l : list hmx) =>
    aji <- sget la (blk atrans sons (ord fwd sons u) (ord fwd sons t)) ;;
    xi <- sget (Some l) (tidx xtrans R C (ord fwd sons t) k) ;;
    xj <- sget (Some l) (tidx xtrans R C (ord fwd sons u) k) ;;
    xj <- updson alpha atrans xtrans aji xi xj ;;
    Ret (lupd l (tidx xtrans R C (ord fwd sons u) k) xj)) l.
(** The diagonal block: [rec] contains the recursive calls *)
Definition diagcol (fwd xtrans : bool) (rec : option (list (hmx -> hmx -> prog K hmx))) (la : option (list hmx)) (sons R C k t : nat) (l : list hmx) : prog K (list hmx) :=
  aii <- sget la (ord fwd sons t + ord fwd sons t * sons) ;;
  xi <- sget (Some l) (tidx xtrans R C (ord fwd sons t) k) ;;
  go <- sget rec (tidx xtrans R C (ord fwd sons t) k) ;;
  xi <- go aii xi ;;
  Ret (lupd l (tidx xtrans R C (ord fwd sons t) k) xi).

(** The loops over the blocks of [xp] (Library/harith.c:4479-4488, 4498-4507 and the same lines in the
    other functions).  For [solve], they are those of forward ([fwd]) or backward substitution,
    otherwise those of a multiplication in the opposite order. *)
Definition trisons (solve fwd atrans xtrans : bool) (rec : option (list (hmx -> hmx -> prog K hmx))) (la : option (list hmx)) (sons : nat) (xp : hmx) : prog K hmx :=
  let R := trsons xtrans xp in
  let C := tcsons xtrans xp in
  match hm_son xp with
  | None => Fail ENull
  | Some l =>
      l <- forS 0 C (fun k (l : list hmx) =>
        forS 0 sons (fun t (l : list hmx) =>
          if solve then
            l <- diagcol fwd xtrans rec la sons R C k t l ;;
            updcol (- (1))%F fwd atrans xtrans la sons R C k t l
          else
            l <- updcol f1 fwd atrans xtrans la sons R C k (sons - 1 - t) l ;;
            diagcol fwd xtrans rec la sons R C k (sons - 1 - t) l) l) l ;;
      Ret (set_sons xp l)
  end.

(** [solve = true]: Library/harith.c:4454-4509 [lowersolve_nn_hmatrix], 4511-4566
    [lowersolve_nt_hmatrix], 4568-4623 [lowersolve_tn_hmatrix], 4625-4680 [lowersolve_tt_hmatrix],
    4700-4755 [uppersolve_nn_hmatrix], 4757-4812 [uppersolve_nt_hmatrix], 4814-4869
    [uppersolve_tn_hmatrix], 4871-4926 [uppersolve_tt_hmatrix].
    [solve = false]: 5603-5658 [lowereval_nn_hmatrix], 5660-5715 [lowereval_nt_hmatrix], 5717-5772
    [lowereval_tn_hmatrix], 5774-5829 [lowereval_tt_hmatrix], 5849-5904 [uppereval_nn_hmatrix],
    5906-5961 [uppereval_nt_hmatrix], 5963-6018 [uppereval_tn_hmatrix], 6020-6075
    [uppereval_tt_hmatrix].
    The functions are the same up to transposition, which is an argument here, and the order of the
    loops; only the assertion in [lowereval_nt_hmatrix] (line 5699) is different. *)
Fixpoint tri_h (solve alower aunit atrans xtrans : bool) (shape a xp : hmx) : prog K hmx :=
  passert (cp_eqb (hm_rc a) (hm_cc a)) ;;;
  passert (cp_eqb (hm_cc a) (trc xtrans xp)) ;;;
  match hm_f xp with
  | Some f =>
      (if solve then triangularinvmul_hmatrix_amatrix alower aunit atrans a xtrans f
       else triangularmul_hmatrix_amatrix alower aunit atrans a xtrans f) ;;; Ret xp
  | None =>
  match hm_r xp with
  | Some r =>
      let x := if xtrans then rk_B r else rk_A r in
      (if solve then triangularinvmul_hmatrix_amatrix alower aunit atrans a false x
       else triangularmul_hmatrix_amatrix alower aunit atrans a false x) ;;; Ret xp
  | None =>
      let rec := match shape with
                 | HM _ _ _ _ (Some ls) _ _ _ => Some (map (tri_h solve alower aunit atrans xtrans) ls)
                 | _ => None
                 end in
      match hm_f a with
      | Some f =>
          x0 <- sget (hm_son xp) 0 ;;
          let split := negb (cp_eqb (trc xtrans x0) (trc xtrans xp)) in
          atmp <- split_sub_amatrix f (hm_rc a) (hm_cc a) split split ;;
          passert (trsons xtrans xp =? hm_rsons atmp) ;;;
          xp <- trisons solve (xorb alower atrans) atrans xtrans rec (hm_son atmp) (hm_rsons atmp) xp ;;
          del_hmatrix atmp ;;;
          Ret xp
      | None =>
          passert (hm_rsons a =? hm_csons a) ;;;
          passert ((if negb solve && alower && negb atrans then hm_rsons xp else trsons xtrans xp) =? hm_rsons a) ;;;
          trisons solve (xorb alower atrans) atrans xtrans rec (hm_son a) (hm_rsons a) xp
      end
  end
  end.

(** Library/harith.c:4682-4697 [lowersolve_hmatrix], 4928-4943 [uppersolve_hmatrix], 4946-4954
    [triangularinvmul_hmatrix]; 5831-5846 [lowereval_hmatrix], 6077-6092 [uppereval_hmatrix],
    6095-6103 [triangularmul_hmatrix] *)
Definition triangularinvmul_hmatrix (alower aunit atrans : bool) (a : hmx) (xtrans : bool) (xp : hmx) : prog K hmx :=
  tri_h true alower aunit atrans xtrans xp a xp.
Definition triangularmul_hmatrix (alower aunit atrans : bool) (a : hmx) (xtrans : bool) (xp : hmx) : prog K hmx :=
  tri_h false alower aunit atrans xtrans xp a xp.
(** Library/harith.c:4956-5097 [triangularinvmul_amatrix_hmatrix] and the functions it calls: the dense
    matrix is wrapped in an H-matrix on the stack *)
Definition triangularinvmul_amatrix_hmatrix (alower aunit atrans : bool) (a : mat) (xtrans : bool) (xp : hmx) : prog K hmx :=
  triangularinvmul_hmatrix alower aunit atrans (HM (trc xtrans xp) (trc xtrans xp) None (Some a) None 0 0 0) xtrans xp.

(** Library/harith.c:6109-6147 [lrdecomp_hmatrix].  [l] are the submatrices of [a] *)
Definition lrstep (sons k : nat) (go : hmx -> prog K hmx) (l : list hmx) : prog K (list hmx) :=
  akk <- sget (Some l) (k + k * sons) ;;
  akk <- go akk ;;
  let l := lupd l (k + k * sons) akk in
  l <- forS (k + 1) (sons - (k + 1)) (fun j (l : list hmx) =>
    akj <- sget (Some l) (k + j * sons) ;;
    akj <- triangularinvmul_hmatrix true true false akk false akj ;;
    Ret (lupd l (k + j * sons) akj)) l ;;
  l <- forS (k + 1) (sons - (k + 1)) (fun i (l : list hmx) =>
    aik <- sget (Some l) (i + k * sons) ;;
    aik <- triangularinvmul_hmatrix false false true akk true aik ;;
    Ret (lupd l (i + k * sons) aik)) l ;;
  forS (k + 1) (sons - (k + 1)) (fun j (l : list hmx) =>
    forS (k + 1) (sons - (k + 1)) (fun i (l : list hmx) =>
      aik <- sget (Some l) (i + k * sons) ;;
      akj <- sget (Some l) (k + j * sons) ;;
      aij <- sget (Some l) (i + j * sons) ;;
      aij <- addmul_hmatrix O svd rank (- (1))%F false false aik akj aij ;;
      Ret (lupd l (i + j * sons) aij)) l) l.
Fixpoint lrdecomp_h (shape a : hmx) : prog K hmx :=
  passert (cp_eqb (hm_rc a) (hm_cc a)) ;;;
  match hm_f a with
  | Some f =>
      res <- lrdecomp_amatrix f ;;
      passert (res =? 0) ;;;
      Ret a
  | None =>
      match hm_son a with
      | None => Fail EAssert
      | Some l =>
          passert (hm_rsons a =? hm_csons a) ;;;
          let sons := hm_rsons a in
          let rec := match shape with HM _ _ _ _ (Some ls) _ _ _ => Some (map lrdecomp_h ls) | _ => None end in
          l <- forS 0 sons (fun k (l : list hmx) =>
            go <- sget rec (k + k * sons) ;;
            lrstep sons k go l) l ;;
          Ret (set_sons a l)
      end
  end.
Definition lrdecomp_hmatrix (a : hmx) : prog K hmx := lrdecomp_h a a.
End Hfac.
