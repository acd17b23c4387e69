(** * Products, triangular systems and factorisations with H-matrices, Library/harith.c

    The functions for vectors and for dense matrices, transposed or not, differ only in the type of
    the right-hand side and in the functions for the leaves.  The model has one function for each
    loop structure; [rhs] collects the operations on the right-hand side.  Simplification: offsets
    that would fall below zero ([uint] wraps around) are an error. *)
From Coq Require Import Arith Lia List Bool.
From Verif Require Import Fld Ord Prog Arr View Cluster Block Avector Amatrix Norm Factor Rkmatrix Hmatrix.
Import ListNotations.

Section Harith.
Context {K : fops} {G : ofops}.
Local Notation hmx := (hmatrix G).

(** ** Products of low-rank and hierarchical matrices with dense matrices *)

(** Library/harith.c:1969-2053 [addmul_rkmatrix_amatrix_amatrix]; [A] and [B] are exchanged if
    [xtrans] is set *)
Definition addmul_rkmatrix_amatrix_amatrix (alpha : K) (xtrans : bool) (x : rkm) (ytrans : bool) (y : mat) (ztrans : bool) (z : mat) : prog K unit :=
  let rows := mrows (rk_A x) in
  let cols := mrows (rk_B x) in
  let k := mcols (rk_A x) in
  passert (mcols (rk_A x) =? k) ;;;
  passert (mcols (rk_B x) =? k) ;;;
  if xtrans then
    passert ((if ztrans then mcols z else mrows z) =? cols) ;;;
    passert ((if ztrans then mrows z else mcols z) =? (if ytrans then mrows y else mcols y)) ;;;
    passert ((if ytrans then mcols y else mrows y) =? rows) ;;;
    ay <- init_amatrix k (if ytrans then mrows y else mcols y) ;;
    clear_amatrix ay ;;;
    addmul_amatrix f1 true (rk_A x) ytrans y ay ;;;
    (if ztrans then addmul_amatrix (fconj alpha) true ay true (rk_B x) z
     else addmul_amatrix alpha false (rk_B x) false ay z) ;;;
    uninit_amatrix ay
  else
    passert ((if ztrans then mcols z else mrows z) =? rows) ;;;
    passert ((if ztrans then mrows z else mcols z) =? (if ytrans then mrows y else mcols y)) ;;;
    passert ((if ytrans then mcols y else mrows y) =? cols) ;;;
    by_ <- init_amatrix k (if ytrans then mrows y else mcols y) ;;
    clear_amatrix by_ ;;;
    addmul_amatrix f1 true (rk_B x) ytrans y by_ ;;;
    (if ztrans then addmul_amatrix (fconj alpha) true by_ true (rk_A x) z
     else addmul_amatrix alpha false (rk_A x) false by_ z) ;;;
    uninit_amatrix by_.

(** [init_sub_amatrix] for [n] rows (columns if [t] is set) from [off] on *)
Definition subpart (t : bool) (x : mat) (n off : nat) : prog K mat :=
  if t then init_sub_amatrix x (mrows x) 0 n off else init_sub_amatrix x n off (mcols x) 0.
(** Rows and columns of a matrix or its adjoint. *)
Definition trows (t : bool) (x : mat) : nat := if t then mcols x else mrows x.
Definition tcols (t : bool) (x : mat) : nat := if t then mrows x else mcols x.

(** Library/harith.c:2060-2122 [addmul_n_hmatrix_amatrix_amatrix] *)
Fixpoint addmul_n_hmatrix_amatrix_amatrix (alpha : K) (a : hmx) (btrans : bool) (bp : mat) (ctrans : bool) (cp : mat) : prog K unit :=
  match a with
  | HM rc cc r f son rsons csons _ =>
      passert (trows btrans bp =? csz cc) ;;;
      passert (tcols btrans bp =? tcols ctrans cp) ;;;
      passert (trows ctrans cp =? csz rc) ;;;
      match r with
      | Some r => addmul_rkmatrix_amatrix_amatrix alpha false r btrans bp ctrans cp
      | None =>
      match f with
      | Some f =>
          if ctrans then addmul_amatrix (fconj alpha) (negb btrans) bp true f cp
          else addmul_amatrix alpha false f btrans bp cp
      | None =>
          let rec := match son with Some l => Some (map (fun s => (s, addmul_n_hmatrix_amatrix_amatrix alpha s)) l) | None => None end in
          boff <- forS 0 csons (fun j boff =>
            sj <- sget rec (j * rsons) ;;
            bp1 <- subpart btrans bp (hcols (fst sj)) boff ;;
            coff <- forS 0 rsons (fun i coff =>
              si <- sget rec i ;;
              cp1 <- subpart ctrans cp (hrows (fst si)) coff ;;
              s <- sget rec (i + j * rsons) ;;
              snd s btrans bp1 ctrans cp1 ;;;
              uninit_amatrix cp1 ;;;
              Ret (coff + hrows (fst si))) 0 ;;
            passert (coff =? csz rc) ;;;
            uninit_amatrix bp1 ;;;
            Ret (boff + hcols (fst sj))) 0 ;;
          passert (boff =? csz cc)
      end
      end
  end.

(** Library/harith.c:2125-2184 [addmul_t_hmatrix_amatrix_amatrix] *)
Fixpoint addmul_t_hmatrix_amatrix_amatrix (alpha : K) (a : hmx) (btrans : bool) (bp : mat) (ctrans : bool) (cp : mat) : prog K unit :=
  match a with
  | HM rc cc r f son rsons csons _ =>
      passert (trows btrans bp =? csz rc) ;;;
      passert (tcols btrans bp =? tcols ctrans cp) ;;;
      passert (trows ctrans cp =? csz cc) ;;;
      match r with
      | Some r => addmul_rkmatrix_amatrix_amatrix alpha true r btrans bp ctrans cp
      | None =>
      match f with
      | Some f =>
          if ctrans then addmul_amatrix (fconj alpha) (negb btrans) bp false f cp
          else addmul_amatrix alpha true f btrans bp cp
      | None =>
          let rec := match son with Some l => Some (map (fun s => (s, addmul_t_hmatrix_amatrix_amatrix alpha s)) l) | None => None end in
          coff <- forS 0 csons (fun j coff =>
            sj <- sget rec (j * rsons) ;;
            cp1 <- subpart ctrans cp (hcols (fst sj)) coff ;;
            boff <- forS 0 rsons (fun i boff =>
              si <- sget rec i ;;
              bp1 <- subpart btrans bp (hrows (fst si)) boff ;;
              s <- sget rec (i + j * rsons) ;;
              snd s btrans bp1 ctrans cp1 ;;;
              uninit_amatrix bp1 ;;;
              Ret (boff + hrows (fst si))) 0 ;;
            passert (boff =? csz rc) ;;;
            uninit_amatrix cp1 ;;;
            Ret (coff + hcols (fst sj))) 0 ;;
          passert (coff =? csz cc)
      end
      end
  end.

(** Library/harith.c:2188-2240 [addmul_hmatrix_amatrix_amatrix] *)
Definition addmul_hmatrix_amatrix_amatrix (alpha : K) (atrans : bool) (a : hmx) (btrans : bool) (bp : mat) (ctrans : bool) (cp : mat) : prog K unit :=
  if atrans then
    passert (trows btrans bp =? hrows a) ;;;
    passert (tcols btrans bp =? tcols ctrans cp) ;;;
    passert (trows ctrans cp =? hcols a) ;;;
    addmul_t_hmatrix_amatrix_amatrix alpha a btrans bp ctrans cp
  else
    passert (trows btrans bp =? hcols a) ;;;
    passert (tcols btrans bp =? tcols ctrans cp) ;;;
    passert (trows ctrans cp =? hrows a) ;;;
    addmul_n_hmatrix_amatrix_amatrix alpha a btrans bp ctrans cp.

(** ** Triangular matrices *)

(** The operations on right-hand sides: number of rows, part of the rows, end of its use, the
    triangular solver and product for dense leaves, and the product for the other blocks. *)
Record rhs := Rhs {
  rhsT : Type;
  rsize : rhsT -> nat;
  rsub : rhsT -> nat -> nat -> prog K rhsT;
  rdone : rhsT -> prog K unit;
  rsolve : bool -> bool -> bool -> mat -> rhsT -> prog K unit;
  reval : bool -> bool -> bool -> mat -> rhsT -> prog K unit;
  radd : K -> bool -> hmx -> rhsT -> rhsT -> prog K unit
}.
(** Vectors *)
Definition vrhs : rhs :=
  {| rhsT := vec; rsize := vdim; rsub := init_sub_avector; rdone := uninit_avector;
     rsolve := triangularsolve_amatrix_avector; reval := triangulareval_amatrix_avector;
     radd := fun alpha t s x y => if t then fastaddevaltrans_hmatrix_avector alpha s x y else fastaddeval_hmatrix_avector alpha s x y |}.
(** Matrices or, if [xtrans] is set, adjoint matrices *)
Definition mrhs (xtrans : bool) : rhs :=
  {| rhsT := mat; rsize := trows xtrans; rsub := subpart xtrans; rdone := uninit_amatrix;
     rsolve := fun lower aunit t a x => triangularsolve_amatrix lower aunit t a xtrans x;
     reval := fun lower aunit t a x => triangulareval_amatrix lower aunit t a xtrans x;
     radd := fun alpha t s x y => addmul_hmatrix_amatrix_amatrix alpha t s xtrans x xtrans y |}.

(** [a - b] for offsets *)
Definition psub (a b : nat) : prog K nat := if b <=? a then Ret (a - b) else Fail EBounds.

(** The block of the matrix or of its adjoint in row [j] and column [i]: [son[j + i*sons]] or
    [son[i + j*sons]]. *)
Definition blk (atrans : bool) (sons j i : nat) : nat := if atrans then i + j * sons else j + i * sons.

Section Rhs.
Variable X : rhs.
(** The loop [for (j = i + 1; j < sons; j++)] of the functions below *)
Definition updafter (alpha : K) (atrans : bool) (son : option (list hmx)) (sons i : nat) (xp xp1 : rhsT X) (off : nat) : prog K nat :=
  forS (i + 1) (sons - (i + 1)) (fun j off2 =>
    sj <- sget son j ;;
    xp2 <- rsub X xp (hrows sj) off2 ;;
    s <- sget son (blk atrans sons j i) ;;
    radd X alpha atrans s xp1 xp2 ;;;
    rdone X xp2 ;;;
    Ret (off2 + hrows sj)) off.
(** The loop [for (j = i; j-- > 0;)] of the functions below *)
Definition updbefore (alpha : K) (atrans : bool) (son : option (list hmx)) (sons i : nat) (xp xp1 : rhsT X) (off : nat) : prog K nat :=
  forS 0 i (fun k off2 =>
    let j := i - 1 - k in
    sj <- sget son j ;;
    off2 <- psub off2 (hrows sj) ;;
    xp2 <- rsub X xp (hrows sj) off2 ;;
    s <- sget son (blk atrans sons j i) ;;
    radd X alpha atrans s xp1 xp2 ;;;
    rdone X xp2 ;;;
    Ret off2) off.

(** Library/harith.c:3772-3816 [lowersolve_n_hmatrix_avector], 3818-3863 [lowersolve_t_hmatrix_avector],
    3874-3918 [uppersolve_n_hmatrix_avector], 3920-3965 [uppersolve_t_hmatrix_avector]; for dense
    matrices 4011-4059 [lowersolve_nn_hmatrix_amatrix], 4061-4109 [.._nt_..], 4111-4159 [.._tn_..],
    4161-4208 [.._tt_..], 4228-4276 [uppersolve_nn_hmatrix_amatrix], 4278-4325 [.._nt_..],
    4327-4375 [.._tn_..], 4377-4424 [.._tt_..].  [alower <> atrans] is forward substitution. *)
Fixpoint trisolve (alower aunit atrans : bool) (a : hmx) (xp : rhsT X) : prog K unit :=
  match a with
  | HM rc cc _ f son rsons csons _ =>
      passert (cp_eqb rc cc) ;;;
      passert (csz cc =? rsize X xp) ;;;
      match f with
      | Some f => rsolve X alower aunit atrans f xp
      | None =>
      match son with
      | None => Fail EAssert
      | Some l =>
          passert (rsons =? csons) ;;;
          let sons := rsons in
          let rec := Some (map (trisolve alower aunit atrans) l) in
          if xorb alower atrans then
            roff <- forS 0 sons (fun i roff =>
              si <- sget son i ;;
              xp1 <- rsub X xp (hrows si) roff ;;
              go <- sget rec (i + i * sons) ;;
              go xp1 ;;;
              roff2 <- updafter (fopp f1) atrans son sons i xp xp1 (roff + hrows si) ;;
              passert (roff2 =? csz rc) ;;;
              rdone X xp1 ;;;
              Ret (roff + hrows si)) 0 ;;
            passert (roff =? csz rc)
          else
            roff <- forS 0 sons (fun k roff =>
              let i := sons - 1 - k in
              si <- sget son i ;;
              roff <- psub roff (hrows si) ;;
              xp1 <- rsub X xp (hrows si) roff ;;
              go <- sget rec (i + i * sons) ;;
              go xp1 ;;;
              roff2 <- updbefore (fopp f1) atrans son sons i xp xp1 roff ;;
              passert (roff2 =? 0) ;;;
              rdone X xp1 ;;;
              Ret roff) (csz rc) ;;
            passert (roff =? 0)
      end
      end
  end.

(** Library/harith.c:5103-5147 [lowereval_n_hmatrix_avector], 5149-5193 [lowereval_t_hmatrix_avector],
    5204-5248 [uppereval_n_hmatrix_avector], 5250-5294 [uppereval_t_hmatrix_avector]; for dense
    matrices 5341-5397 [lowereval_n_hmatrix_amatrix], 5399-5455 [lowereval_t_hmatrix_amatrix],
    5467-5523 [uppereval_n_hmatrix_amatrix], 5525-5581 [uppereval_t_hmatrix_amatrix]. *)
Fixpoint trieval (alower aunit atrans : bool) (a : hmx) (xp : rhsT X) : prog K unit :=
  match a with
  | HM rc cc _ f son rsons csons _ =>
      passert (cp_eqb rc cc) ;;;
      passert (csz cc =? rsize X xp) ;;;
      match f with
      | Some f => reval X alower aunit atrans f xp
      | None =>
      match son with
      | None => Fail EAssert
      | Some l =>
          passert (rsons =? csons) ;;;
          let sons := rsons in
          let rec := Some (map (trieval alower aunit atrans) l) in
          if xorb alower atrans then
            roff <- forS 0 sons (fun k roff =>
              let i := sons - 1 - k in
              si <- sget son i ;;
              roff <- psub roff (hrows si) ;;
              xp1 <- rsub X xp (hrows si) roff ;;
              roff2 <- updafter f1 atrans son sons i xp xp1 (roff + hrows si) ;;
              passert (roff2 =? csz rc) ;;;
              go <- sget rec (i + i * sons) ;;
              go xp1 ;;;
              rdone X xp1 ;;;
              Ret roff) (csz rc) ;;
            passert (roff =? 0)
          else
            roff <- forS 0 sons (fun i roff =>
              si <- sget son i ;;
              xp1 <- rsub X xp (hrows si) roff ;;
              roff2 <- updbefore f1 atrans son sons i xp xp1 roff ;;
              passert (roff2 =? 0) ;;;
              go <- sget rec (i + i * sons) ;;
              go xp1 ;;;
              rdone X xp1 ;;;
              Ret (roff + hrows si)) 0 ;;
            passert (roff =? csz rc)
      end
      end
  end.
End Rhs.

(** Library/harith.c:3865-3872 [lowersolve_hmatrix_avector] *)
Definition lowersolve_hmatrix_avector (aunit atrans : bool) (a : hmx) (xp : vec) : prog K unit := trisolve vrhs true aunit atrans a xp.
(** Library/harith.c:3967-3974 [uppersolve_hmatrix_avector] *)
Definition uppersolve_hmatrix_avector (aunit atrans : bool) (a : hmx) (xp : vec) : prog K unit := trisolve vrhs false aunit atrans a xp.
(** Library/harith.c:3976-3984 [triangularinvmul_hmatrix_avector] *)
Definition triangularinvmul_hmatrix_avector (alower aunit atrans : bool) (a : hmx) (xp : vec) : prog K unit :=
  if alower then lowersolve_hmatrix_avector aunit atrans a xp else uppersolve_hmatrix_avector aunit atrans a xp.
(** Library/harith.c:5195-5202 [lowereval_hmatrix_avector] *)
Definition lowereval_hmatrix_avector (aunit atrans : bool) (a : hmx) (xp : vec) : prog K unit := trieval vrhs true aunit atrans a xp.
(** Library/harith.c:5296-5303 [uppereval_hmatrix_avector] *)
Definition uppereval_hmatrix_avector (aunit atrans : bool) (a : hmx) (xp : vec) : prog K unit := trieval vrhs false aunit atrans a xp.
(** Library/harith.c:5305-5313 [triangularmul_hmatrix_avector] *)
Definition triangularmul_hmatrix_avector (alower aunit atrans : bool) (a : hmx) (xp : vec) : prog K unit :=
  if alower then lowereval_hmatrix_avector aunit atrans a xp else uppereval_hmatrix_avector aunit atrans a xp.

(** Library/harith.c:4210-4226 [lowersolve_hmatrix_amatrix], 4426-4442 [uppersolve_hmatrix_amatrix],
    4444-4452 [triangularinvmul_hmatrix_amatrix] *)
Definition triangularinvmul_hmatrix_amatrix (alower aunit atrans : bool) (a : hmx) (xtrans : bool) (xp : mat) : prog K unit :=
  trisolve (mrhs xtrans) alower aunit atrans a xp.
(** Library/harith.c:5457-5465 [lowereval_hmatrix_amatrix], 5583-5591 [uppereval_hmatrix_amatrix],
    5593-5601 [triangularmul_hmatrix_amatrix] *)
Definition triangularmul_hmatrix_amatrix (alower aunit atrans : bool) (a : hmx) (xtrans : bool) (xp : mat) : prog K unit :=
  trieval (mrhs xtrans) alower aunit atrans a xp.

(** Copies between [x] and its permuted copy [xp] (Library/harith.c:3994-4008 and similar); [idx] is
    the index array of the cluster tree, [off] the position of the cluster in it.  Unlike the loops
    in hmatrix.c these do not check the indices; the model does. *)
Definition permuted (idx : arr nat) (a : hmx) (x : vec) (work : vec -> prog K unit) : prog K unit :=
  let n := hrows a in
  let off := c_off (cp_c (hm_rc a)) in
  xp <- init_avector n ;;
  for_ 0 n (fun i => ip <- lift (aget idx (off + i)) ;; v <- vload x ip ;; vstore xp i v) ;;;
  work xp ;;;
  for_ 0 n (fun i => v <- vload xp i ;; ip <- lift (aget idx (off + i)) ;; vstore x ip v) ;;;
  uninit_avector xp.

(** Library/harith.c:3986-4009 [triangularsolve_hmatrix_avector] *)
Definition triangularsolve_hmatrix_avector (idx : arr nat) (alower aunit atrans : bool) (a : hmx) (x : vec) : prog K unit :=
  passert (vdim x =? hrows a) ;;;
  permuted idx a x (triangularinvmul_hmatrix_avector alower aunit atrans a).
(** Library/harith.c:5315-5339 [triangulareval_hmatrix_avector] *)
Definition triangulareval_hmatrix_avector (idx : arr nat) (alower aunit atrans : bool) (a : hmx) (x : vec) : prog K unit :=
  passert (cp_eqb (hm_rc a) (hm_cc a)) ;;;
  passert (vdim x =? hrows a) ;;;
  permuted idx a x (triangularmul_hmatrix_avector alower aunit atrans a).

(** Library/harith.c:6147-6170 [lrsolve_n_hmatrix_avector] *)
Definition lrsolve_n_hmatrix_avector (idx : arr nat) (a : hmx) (x : vec) : prog K unit :=
  passert (vdim x =? hrows a) ;;;
  permuted idx a x (fun xp => lowersolve_hmatrix_avector true false a xp ;;; uppersolve_hmatrix_avector false false a xp).
(** Library/harith.c:6172-6195 [lrsolve_t_hmatrix_avector] *)
Definition lrsolve_t_hmatrix_avector (idx : arr nat) (a : hmx) (x : vec) : prog K unit :=
  passert (vdim x =? hrows a) ;;;
  permuted idx a x (fun xp => uppersolve_hmatrix_avector false true a xp ;;; lowersolve_hmatrix_avector true true a xp).
(** Library/harith.c:6197-6206 [lrsolve_hmatrix_avector] *)
Definition lrsolve_hmatrix_avector (idx : arr nat) (atrans : bool) (a : hmx) (x : vec) : prog K unit :=
  if atrans then lrsolve_t_hmatrix_avector idx a x else lrsolve_n_hmatrix_avector idx a x.
(** Library/harith.c:6208-6231 [lreval_n_hmatrix_avector] *)
Definition lreval_n_hmatrix_avector (idx : arr nat) (a : hmx) (x : vec) : prog K unit :=
  passert (vdim x =? hrows a) ;;;
  permuted idx a x (fun xp => uppereval_hmatrix_avector false false a xp ;;; lowereval_hmatrix_avector true false a xp).
(** Library/harith.c:6233-6256 [lreval_t_hmatrix_avector] *)
Definition lreval_t_hmatrix_avector (idx : arr nat) (a : hmx) (x : vec) : prog K unit :=
  passert (vdim x =? hrows a) ;;;
  permuted idx a x (fun xp => lowereval_hmatrix_avector true true a xp ;;; uppereval_hmatrix_avector false true a xp).
(** Library/harith.c:6258-6267 [lreval_hmatrix_avector] *)
Definition lreval_hmatrix_avector (idx : arr nat) (atrans : bool) (a : hmx) (x : vec) : prog K unit :=
  if atrans then lreval_t_hmatrix_avector idx a x else lreval_n_hmatrix_avector idx a x.
(** Library/harith.c:6307-6330 [cholsolve_hmatrix_avector] *)
Definition cholsolve_hmatrix_avector (idx : arr nat) (a : hmx) (x : vec) : prog K unit :=
  passert (vdim x =? hrows a) ;;;
  permuted idx a x (fun xp => lowersolve_hmatrix_avector false false a xp ;;; lowersolve_hmatrix_avector false true a xp).
(** Library/harith.c:6332-6355 [choleval_hmatrix_avector] *)
Definition choleval_hmatrix_avector (idx : arr nat) (a : hmx) (x : vec) : prog K unit :=
  passert (vdim x =? hrows a) ;;;
  permuted idx a x (fun xp => lowereval_hmatrix_avector false true a xp ;;; lowereval_hmatrix_avector false false a xp).
End Harith.
