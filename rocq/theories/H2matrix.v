(** * H2-matrices, Library/h2matrix.c

    An H2-matrix is a value of type [h2matrix] that contains the cluster bases and whose leaves refer
    to matrices in memory; for a uniform leaf [u] is its coupling matrix [u->S] (its bases are those of
    the leaf).  Functions that change an H2-matrix return the changed value.  Simplifications: the
    reference counters and the lists of uniform matrices are not part of this model (sons are not
    shared, see Uniform.v for the lists), an array of sons has no null entries, [uint] arithmetic does
    not wrap around.  Pointers to cluster bases of the same tree are compared by comparing their
    clusters: a tree of bases contains one basis for each cluster. *)
From Coq Require Import Arith Lia List Bool.
From Verif Require Import Fld Ord Prog Arr View Cluster Block Avector Amatrix Norm Rkmatrix Hmatrix Clusterbasis.
Import ListNotations.

(** struct _h2matrix, Library/h2matrix.h:48-71 *)
Inductive h2matrix (G : ofops) :=
| H2 (rb cb : cbasis G) (u f : option mat) (son : option (list (h2matrix G))) (rsons csons desc : nat).
Arguments H2 {G}.
Definition h2_rb {G : ofops} (h : h2matrix G) := match h with H2 x _ _ _ _ _ _ _ => x end.
Definition h2_cb {G : ofops} (h : h2matrix G) := match h with H2 _ x _ _ _ _ _ _ => x end.
Definition h2_u {G : ofops} (h : h2matrix G) := match h with H2 _ _ x _ _ _ _ _ => x end.
Definition h2_f {G : ofops} (h : h2matrix G) := match h with H2 _ _ _ x _ _ _ _ => x end.
Definition h2_son {G : ofops} (h : h2matrix G) := match h with H2 _ _ _ _ x _ _ _ => x end.
Definition h2_rsons {G : ofops} (h : h2matrix G) := match h with H2 _ _ _ _ _ x _ _ => x end.
Definition h2_csons {G : ofops} (h : h2matrix G) := match h with H2 _ _ _ _ _ _ x _ => x end.
Definition h2_desc {G : ofops} (h : h2matrix G) := match h with H2 _ _ _ _ _ _ _ x => x end.
(** [h2->rb->t->size] and [h2->cb->t->size] *)
Definition h2rows {G : ofops} (h : h2matrix G) : nat := cb_size (h2_rb h).
Definition h2cols {G : ofops} (h : h2matrix G) : nat := cb_size (h2_cb h).
(** Comparison of pointers to cluster bases *)
Definition cb_eqb {G : ofops} (c d : cbasis G) : bool := cp_eqb (cb_t c) (cb_t d).

Section H2matrix.
Context {K : fops} {G : ofops}.
Local Notation h2x := (h2matrix G).
Local Notation cbx := (cbasis G).

(** ** Matrix-vector multiplication *)

(** The selection of a part of a coefficient vector (Library/h2matrix.c:1239-1243 and similar):
    [cb->sons > 0 ? sub(xt, cb->son[j]->ktree, off) : sub(xt, cb->ktree, 0)] *)
Definition h2_part (cb : cbx) (j off : nat) (xt : vec) : prog K vec :=
  match cb_son cb with
  | [] => init_sub_avector xt (cb_ktree cb) 0
  | _ :: _ => s <- sget (Some (cb_son cb)) j ;; init_sub_avector xt (cb_ktree s) off
  end.
(** [off += (cb->sons > 0 ? cb->son[j]->ktree : cb->t->size)], Library/h2matrix.c:1256, 1262 and similar *)
Definition h2_next (cb : cbx) (j off : nat) : prog K nat :=
  match cb_son cb with
  | [] => Ret (off + cb_size cb)
  | _ :: _ => s <- sget (Some (cb_son cb)) j ;; Ret (off + cb_ktree s)
  end.
(** [assert(n == 1 || cb->sons > 0)] *)
Definition h2_split_ok (cb : cbx) (n : nat) : prog K unit := passert ((n =? 1) || (0 <? length (cb_son cb))).

(** Library/h2matrix.c:1210-1266 [fastaddeval_h2matrix_avector] *)
Fixpoint fastaddeval_h2matrix_avector (alpha : K) (h : h2x) (xt yt : vec) : prog K unit :=
  match h with
  | H2 rb cb u f son rsons csons _ =>
      match u with
      | Some Su => addeval_amatrix_avector alpha Su xt yt
      | None =>
      match f with
      | Some F =>
          xp <- init_sub_avector xt (cb_size cb) (cb_k cb) ;;
          yp <- init_sub_avector yt (cb_size rb) (cb_k rb) ;;
          addeval_amatrix_avector alpha F xp yp ;;;
          uninit_avector yp ;;;
          uninit_avector xp
      | None =>
      match son with
      | None => Ret tt
      | Some l =>
          let rec := Some (map (fastaddeval_h2matrix_avector alpha) l) in
          xtoff <- forS 0 csons (fun j xtoff =>
            h2_split_ok cb csons ;;;
            xt1 <- h2_part cb j xtoff xt ;;
            ytoff <- forS 0 rsons (fun i ytoff =>
              h2_split_ok rb rsons ;;;
              yt1 <- h2_part rb i ytoff yt ;;
              s <- sget rec (i + j * rsons) ;;
              s xt1 yt1 ;;;
              uninit_avector yt1 ;;;
              h2_next rb i ytoff) (cb_k rb) ;;
            passert (ytoff =? cb_ktree rb) ;;;
            uninit_avector xt1 ;;;
            h2_next cb j xtoff) (cb_k cb) ;;
          passert (xtoff =? cb_ktree cb)
      end
      end
      end
  end.

(** Library/clusterbasis.c:513-521 [new_coeffs_clusterbasis_avector] *)
Definition new_coeffs_clusterbasis_avector (cb : cbx) : prog K vec := init_avector (cb_ktree cb).

(** Library/h2matrix.c:1268-1286 [addeval_h2matrix_avector]; [ridx] and [cidx] are the index arrays
    of the cluster trees. *)
Definition addeval_h2matrix_avector (ridx cidx : arr nat) (alpha : K) (h : h2x) (x y : vec) : prog K unit :=
  xt <- new_coeffs_clusterbasis_avector (h2_cb h) ;;
  yt <- new_coeffs_clusterbasis_avector (h2_rb h) ;;
  clear_avector yt ;;;
  forward_clusterbasis_avector cidx (h2_cb h) x xt ;;;
  fastaddeval_h2matrix_avector alpha h xt yt ;;;
  backward_clusterbasis_avector ridx (h2_rb h) yt y ;;;
  uninit_avector yt ;;;
  uninit_avector xt.

(** Library/h2matrix.c:1288-1343 [fastaddevaltrans_h2matrix_avector] *)
Fixpoint fastaddevaltrans_h2matrix_avector (alpha : K) (h : h2x) (xt yt : vec) : prog K unit :=
  match h with
  | H2 rb cb u f son rsons csons _ =>
      match u with
      | Some Su => addevaltrans_amatrix_avector alpha Su xt yt
      | None =>
      match f with
      | Some F =>
          xp <- init_sub_avector xt (cb_size rb) (cb_k rb) ;;
          yp <- init_sub_avector yt (cb_size cb) (cb_k cb) ;;
          addevaltrans_amatrix_avector alpha F xp yp ;;;
          uninit_avector yp ;;;
          uninit_avector xp
      | None =>
      match son with
      | None => Ret tt
      | Some l =>
          let rec := Some (map (fastaddevaltrans_h2matrix_avector alpha) l) in
          ytoff <- forS 0 csons (fun j ytoff =>
            yt1 <- h2_part cb j ytoff yt ;;
            xtoff <- forS 0 rsons (fun i xtoff =>
              xt1 <- h2_part rb i xtoff xt ;;
              s <- sget rec (i + j * rsons) ;;
              s xt1 yt1 ;;;
              uninit_avector xt1 ;;;
              h2_next rb i xtoff) (cb_k rb) ;;
            passert (xtoff =? cb_ktree rb) ;;;
            uninit_avector yt1 ;;;
            h2_next cb j ytoff) (cb_k cb) ;;
          passert (ytoff =? cb_ktree cb)
      end
      end
      end
  end.

(** Library/h2matrix.c:1345-1364 [addevaltrans_h2matrix_avector] *)
Definition addevaltrans_h2matrix_avector (ridx cidx : arr nat) (alpha : K) (h : h2x) (x y : vec) : prog K unit :=
  xt <- new_coeffs_clusterbasis_avector (h2_rb h) ;;
  yt <- new_coeffs_clusterbasis_avector (h2_cb h) ;;
  clear_avector yt ;;;
  forward_clusterbasis_avector ridx (h2_rb h) x xt ;;;
  fastaddevaltrans_h2matrix_avector alpha h xt yt ;;;
  backward_clusterbasis_avector cidx (h2_cb h) yt y ;;;
  uninit_avector yt ;;;
  uninit_avector xt.

(** Library/h2matrix.c:1200-1208 [mvm_h2matrix_avector] *)
Definition mvm_h2matrix_avector (ridx cidx : arr nat) (alpha : K) (h2trans : bool) (h : h2x) (x y : vec) : prog K unit :=
  if h2trans then addevaltrans_h2matrix_avector ridx cidx alpha h x y else addeval_h2matrix_avector ridx cidx alpha h x y.

(** Library/h2matrix.c:1965-1970 [norm2_h2matrix] and 1972-1978 [norm2diff_h2matrix] *)
Definition norm2_h2matrix (sq : K -> K) (pos : K -> bool) (rnd : nat -> K) (ridx cidx : arr nat) (h : h2x) : prog K K :=
  norm2_matrix sq pos rnd (fun alpha t => mvm_h2matrix_avector ridx cidx alpha t h) (h2rows h) (h2cols h).
Definition norm2diff_h2matrix (sq : K -> K) (pos : K -> bool) (rnd : nat -> K) (ridx cidx : arr nat) (a b : h2x) : prog K K :=
  norm2diff_matrix sq pos rnd (fun alpha t => mvm_h2matrix_avector ridx cidx alpha t a) (fun alpha t => mvm_h2matrix_avector ridx cidx alpha t b)
    (h2rows a) (h2cols a).

(** The selection of a part in the symmetric case (Library/h2matrix.c:1415-1426 and similar): the
    pointers to the bases of the father and the son [s] are compared. *)
Definition h2_spart (cb s : cbx) (j off : nat) (xt : vec) : prog K vec :=
  if cb_eqb s cb then init_sub_avector xt (cb_ktree cb) 0
  else passert (j <? length (cb_son cb)) ;;; c <- sget (Some (cb_son cb)) j ;; init_sub_avector xt (cb_ktree c) off.
Definition h2_snext (cb s : cbx) (j off : nat) : prog K nat :=
  if cb_eqb s cb then Ret (off + cb_size cb)
  else c <- sget (Some (cb_son cb)) j ;; Ret (off + cb_ktree c).

(** Library/h2matrix.c:1366-1458 [addevalsymm_offdiag] *)
Fixpoint h2_addevalsymm_offdiag (alpha : K) (h : h2x) (xt xta yt yta : vec) : prog K unit :=
  match h with
  | H2 rb cb u f son rsons csons _ =>
      passert (vdim xt =? cb_ktree cb) ;;;
      passert (vdim xta =? cb_ktree rb) ;;;
      passert (vdim yt =? cb_ktree rb) ;;;
      passert (vdim yta =? cb_ktree cb) ;;;
      match f with
      | Some F =>
          xp <- init_sub_avector xt (cb_size cb) (cb_k cb) ;;
          yp <- init_sub_avector yt (cb_size rb) (cb_k rb) ;;
          addeval_amatrix_avector alpha F xp yp ;;;
          uninit_avector yp ;;;
          uninit_avector xp ;;;
          xp <- init_sub_avector xta (cb_size rb) (cb_k rb) ;;
          yp <- init_sub_avector yta (cb_size cb) (cb_k cb) ;;
          addevaltrans_amatrix_avector alpha F xp yp ;;;
          uninit_avector yp ;;;
          uninit_avector xp
      | None =>
      match u with
      | Some Su =>
          addeval_amatrix_avector alpha Su xt yt ;;;
          addevaltrans_amatrix_avector alpha Su xta yta
      | None =>
      match son with
      | None => Fail EAssert
      | Some l =>
          let rec := Some (map (fun s => (s, h2_addevalsymm_offdiag alpha s)) l) in
          xtoff <- forS 0 csons (fun j xtoff =>
            sj <- sget rec (j * rsons) ;;
            xt1 <- h2_spart cb (h2_cb (fst sj)) j xtoff xt ;;
            yta1 <- h2_spart cb (h2_cb (fst sj)) j xtoff yta ;;
            xtoff' <- h2_snext cb (h2_cb (fst sj)) j xtoff ;;
            ytoff <- forS 0 rsons (fun i ytoff =>
              si <- sget rec i ;;
              yt1 <- h2_spart rb (h2_rb (fst si)) i ytoff yt ;;
              xta1 <- h2_spart rb (h2_rb (fst si)) i ytoff xta ;;
              ytoff' <- h2_snext rb (h2_rb (fst si)) i ytoff ;;
              s <- sget rec (i + j * rsons) ;;
              snd s xt1 xta1 yt1 yta1 ;;;
              uninit_avector xta1 ;;;
              uninit_avector yt1 ;;;
              Ret ytoff') (cb_k rb) ;;
            passert (ytoff =? cb_ktree rb) ;;;
            uninit_avector yta1 ;;;
            uninit_avector xt1 ;;;
            Ret xtoff') (cb_k cb) ;;
          passert (xtoff =? cb_ktree cb)
      end
      end
      end
  end.

(** The loop over a dense diagonal block, Library/h2matrix.c:1489-1495 *)
Definition h2_diagloop (alpha : K) (F : mat) (n : nat) (xp yp : vec) : prog K unit :=
  for_ 0 n (fun j =>
    v <- vload yp j ;; a <- mload F j j ;; w <- vload xp j ;; vstore yp j (v + alpha * a * w)%F ;;;
    for_ (j + 1) (n - (j + 1)) (fun i =>
      v <- vload yp i ;; a <- mload F i j ;; w <- vload xp j ;; vstore yp i (v + alpha * a * w)%F ;;;
      v <- vload yp j ;; a <- mload F i j ;; w <- vload xp i ;; vstore yp j (v + alpha * fconj a * w)%F)).

(** Library/h2matrix.c:1460-1568 [addevalsymm_diag] *)
Fixpoint h2_addevalsymm_diag (alpha : K) (h : h2x) (xt xta yt yta : vec) : prog K unit :=
  match h with
  | H2 rb cb u f son rsons csons _ =>
      passert (cp_eqb (cb_t rb) (cb_t cb)) ;;;
      passert (vdim xt =? cb_ktree cb) ;;;
      passert (vdim xta =? cb_ktree rb) ;;;
      passert (vdim yt =? cb_ktree rb) ;;;
      passert (vdim yta =? cb_ktree cb) ;;;
      match f with
      | Some F =>
          xp <- init_sub_avector xt (cb_size rb) (cb_k cb) ;;
          yp <- init_sub_avector yt (cb_size rb) (cb_k rb) ;;
          h2_diagloop alpha F (cb_size rb) xp yp ;;;
          uninit_avector yp ;;;
          uninit_avector xp
      | None =>
      match son with
      | None => Fail EAssert
      | Some l =>
          passert (rsons =? csons) ;;;
          let rec := Some (map (fun s => (s, h2_addevalsymm_diag alpha s)) l) in
          xtoff <- forS 0 rsons (fun j xtoff =>
            sj <- sget rec (j * rsons) ;;
            xt1 <- h2_spart cb (h2_cb (fst sj)) j xtoff xt ;;
            yta1 <- h2_spart cb (h2_cb (fst sj)) j xtoff yta ;;
            xtoff' <- h2_snext cb (h2_cb (fst sj)) j xtoff ;;
            s0 <- sget rec 0 ;;
            tri <- (if cb_eqb (h2_rb (fst s0)) rb then
                      yt1 <- init_sub_avector yt (cb_ktree rb) 0 ;;
                      xta1 <- init_sub_avector xta (cb_ktree rb) 0 ;;
                      Ret (yt1, xta1, cb_k rb + cb_size rb)
                    else
                      ytoff <- forS 0 j (fun i ytoff => c <- sget (Some (cb_son rb)) i ;; Ret (ytoff + cb_ktree c)) (cb_k rb) ;;
                      c <- sget (Some (cb_son rb)) j ;;
                      yt1 <- init_sub_avector yt (cb_ktree c) ytoff ;;
                      xta1 <- init_sub_avector xta (cb_ktree c) ytoff ;;
                      Ret (yt1, xta1, ytoff + cb_ktree c)) ;;
            let '(yt1, xta1, ytoff) := tri in
            s <- sget rec (j + j * rsons) ;;
            snd s xt1 xta1 yt1 yta1 ;;;
            uninit_avector xta1 ;;;
            uninit_avector yt1 ;;;
            ytoff <- forS (j + 1) (rsons - (j + 1)) (fun i ytoff =>
              passert (i <? length (cb_son rb)) ;;;
              c <- sget (Some (cb_son rb)) i ;;
              yt1 <- init_sub_avector yt (cb_ktree c) ytoff ;;
              xta1 <- init_sub_avector xta (cb_ktree c) ytoff ;;
              s <- sget rec (i + j * rsons) ;;
              h2_addevalsymm_offdiag alpha (fst s) xt1 xta1 yt1 yta1 ;;;
              uninit_avector xta1 ;;;
              uninit_avector yt1 ;;;
              Ret (ytoff + cb_ktree c)) ytoff ;;
            passert (ytoff =? cb_ktree rb) ;;;
            uninit_avector yta1 ;;;
            uninit_avector xt1 ;;;
            Ret xtoff') (cb_k cb) ;;
          passert (xtoff =? cb_ktree cb)
      end
      end
  end.

(** Library/h2matrix.c:1570-1604 [addevalsymm_h2matrix_avector].  The code releases the entries of
    the four vectors with [uninit_avector] but not the structures allocated by [new_avector]. *)
Definition addevalsymm_h2matrix_avector (ridx cidx : arr nat) (alpha : K) (h : h2x) (x y : vec) : prog K unit :=
  let rb := h2_rb h in
  let cb := h2_cb h in
  passert (cp_eqb (cb_t rb) (cb_t cb)) ;;;
  xt <- new_coeffs_clusterbasis_avector cb ;;
  xta <- new_coeffs_clusterbasis_avector rb ;;
  yt <- new_coeffs_clusterbasis_avector rb ;;
  yta <- new_coeffs_clusterbasis_avector cb ;;
  clear_avector yt ;;;
  clear_avector yta ;;;
  forward_clusterbasis_avector cidx cb x xt ;;;
  forward_clusterbasis_avector ridx rb x xta ;;;
  h2_addevalsymm_diag alpha h xt xta yt yta ;;;
  backward_clusterbasis_avector ridx rb yt y ;;;
  backward_clusterbasis_avector cidx cb yta y ;;;
  uninit_avector yta ;;;
  uninit_avector yt ;;;
  uninit_avector xta ;;;
  uninit_avector xt.

(** ** Products with dense matrices *)

(** The selection of rows of a coefficient matrix, Library/h2matrix.c:1643-1646 and 1651-1654 *)
Definition h2_mpart (cb : cbx) (j off cols : nat) (Xt : mat) : prog K mat :=
  match cb_son cb with
  | [] => init_sub_amatrix Xt (cb_ktree cb) 0 cols 0
  | _ :: _ => s <- sget (Some (cb_son cb)) j ;; init_sub_amatrix Xt (cb_ktree s) off cols 0
  end.

(** Library/h2matrix.c:1610-1669 [fastaddmul_h2matrix_amatrix_amatrix] *)
Fixpoint fastaddmul_h2matrix_amatrix_amatrix (alpha : K) (h2trans : bool) (h : h2x) (Xt Yt : mat) : prog K unit :=
  match h with
  | H2 rb0 cb0 u f son rsons0 csons0 _ =>
      let rb := if h2trans then cb0 else rb0 in
      let cb := if h2trans then rb0 else cb0 in
      let rsons := if h2trans then csons0 else rsons0 in
      let csons := if h2trans then rsons0 else csons0 in
      let cols := mcols Xt in
      match u with
      | Some Su =>
          Xt1 <- init_sub_amatrix Xt (cb_k cb) 0 (mcols Xt) 0 ;;
          Yt1 <- init_sub_amatrix Yt (cb_k rb) 0 (mcols Yt) 0 ;;
          addmul_amatrix alpha h2trans Su false Xt1 Yt1 ;;;
          uninit_amatrix Yt1 ;;;
          uninit_amatrix Xt1
      | None =>
      match f with
      | Some F =>
          Xp <- init_sub_amatrix Xt (cb_size cb) (cb_k cb) (mcols Xt) 0 ;;
          Yp <- init_sub_amatrix Yt (cb_size rb) (cb_k rb) (mcols Yt) 0 ;;
          addmul_amatrix alpha h2trans F false Xp Yp ;;;
          uninit_amatrix Yp ;;;
          uninit_amatrix Xp
      | None =>
      match son with
      | None => Ret tt
      | Some l =>
          let rec := Some (map (fastaddmul_h2matrix_amatrix_amatrix alpha h2trans) l) in
          xtoff <- forS 0 csons (fun j xtoff =>
            h2_split_ok cb csons ;;;
            Xt1 <- h2_mpart cb j xtoff cols Xt ;;
            ytoff <- forS 0 rsons (fun i ytoff =>
              h2_split_ok rb rsons ;;;
              Yt1 <- h2_mpart rb i ytoff cols Yt ;;
              let k := if h2trans then i * csons + j else i + j * rsons in
              s <- sget rec k ;;
              s Xt1 Yt1 ;;;
              uninit_amatrix Yt1 ;;;
              h2_next rb i ytoff) (cb_k rb) ;;
            passert (ytoff =? cb_ktree rb) ;;;
            uninit_amatrix Xt1 ;;;
            h2_next cb j xtoff) (cb_k cb) ;;
          passert (xtoff =? cb_ktree cb)
      end
      end
      end
  end.

(** The common part of the eight cases of the following functions: coefficients for [n1] columns
    with basis [cb], multiplication, backward transformation with basis [rb]. *)
Definition h2_addmul_with (forward : cbx -> mat -> mat -> prog K unit) (backward : cbx -> mat -> mat -> prog K unit)
    (alpha : K) (h2trans : bool) (h : h2x) (cb rb : cbx) (n1 n2 : nat) (X Y : mat) : prog K unit :=
  Xt <- init_amatrix (cb_ktree cb) n1 ;;
  Yt <- init_amatrix (cb_ktree rb) n2 ;;
  clear_amatrix Yt ;;;
  forward cb X Xt ;;;
  fastaddmul_h2matrix_amatrix_amatrix alpha h2trans h Xt Yt ;;;
  backward rb Yt Y ;;;
  uninit_amatrix Yt ;;;
  uninit_amatrix Xt.

(** Library/h2matrix.c:1671-1740 [addmul_h2matrix_amatrix_amatrix] *)
Definition addmul_h2matrix_amatrix_amatrix (alpha : K) (h2trans : bool) (h : h2x) (xtrans : bool) (X Y : mat) : prog K unit :=
  let rb := h2_rb h in
  let cb := h2_cb h in
  if negb h2trans then
    if negb xtrans then
      passert (mcols X =? mcols Y) ;;; passert (mrows X =? cb_size cb) ;;; passert (mrows Y =? cb_size rb) ;;;
      h2_addmul_with forward_clusterbasis_amatrix backward_clusterbasis_amatrix alpha false h cb rb (mcols X) (mcols Y) X Y
    else
      passert (mrows X =? mcols Y) ;;; passert (mcols X =? cb_size cb) ;;; passert (mrows Y =? cb_size rb) ;;;
      h2_addmul_with forward_clusterbasis_trans_amatrix backward_clusterbasis_amatrix alpha false h cb rb (mrows X) (mcols Y) X Y
  else
    if negb xtrans then
      passert (mcols X =? mcols Y) ;;; passert (mrows X =? cb_size rb) ;;; passert (mrows Y =? cb_size cb) ;;;
      h2_addmul_with forward_clusterbasis_amatrix backward_clusterbasis_amatrix alpha true h rb cb (mcols X) (mcols Y) X Y
    else
      passert (mrows X =? mcols Y) ;;; passert (mcols X =? cb_size rb) ;;; passert (mrows Y =? cb_size cb) ;;;
      h2_addmul_with forward_clusterbasis_trans_amatrix backward_clusterbasis_amatrix alpha true h rb cb (mrows X) (mcols Y) X Y.

(** Library/h2matrix.c:1742-1811 [addmul_amatrix_h2matrix_amatrix] *)
Definition addmul_amatrix_h2matrix_amatrix (alpha : K) (xtrans : bool) (X : mat) (h2trans : bool) (h : h2x) (Y : mat) : prog K unit :=
  let rb := h2_rb h in
  let cb := h2_cb h in
  if h2trans then
    if xtrans then
      passert (mcols X =? mrows Y) ;;; passert (mrows X =? cb_size cb) ;;; passert (mcols Y =? cb_size rb) ;;;
      h2_addmul_with forward_clusterbasis_amatrix backward_clusterbasis_amatrix alpha false h cb rb (mcols X) (mrows Y) X Y
    else
      passert (mrows X =? mrows Y) ;;; passert (mcols X =? cb_size cb) ;;; passert (mcols Y =? cb_size rb) ;;;
      h2_addmul_with forward_clusterbasis_trans_amatrix backward_clusterbasis_trans_amatrix alpha false h cb rb (mrows X) (mrows Y) X Y
  else
    if xtrans then
      passert (mcols X =? mrows Y) ;;; passert (mrows X =? cb_size rb) ;;; passert (mcols Y =? cb_size cb) ;;;
      h2_addmul_with forward_clusterbasis_amatrix backward_clusterbasis_trans_amatrix alpha true h rb cb (mcols X) (mrows Y) X Y
    else
      passert (mrows X =? mrows Y) ;;; passert (mcols X =? cb_size rb) ;;; passert (mcols Y =? cb_size cb) ;;;
      h2_addmul_with forward_clusterbasis_trans_amatrix backward_clusterbasis_trans_amatrix alpha true h rb cb (mrows X) (mrows Y) X Y.
End H2matrix.
