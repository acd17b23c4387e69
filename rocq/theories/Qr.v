(** * factorizations.c: QR decomposition by Householder reflections

    Model of /repo/Library/factorizations.c, code paths without BLAS. *)
From Coq Require Import Arith NArith List Bool.
From Verif Require Import Fld Prog View Avector Amatrix Factor Lr Chol.

(** In addition to the operations of [rops]: [SIGN1(x)] (Library/basic.h:373-397), the test
    [x <= H2_ALMOST_ZERO] for a real [x] (Library/settings.h:113-125) and [x > y] for real
    [x] and [y].  [ABSSQR(x)] (Library/basic.h:357-372) is modelled by the product of [x] and
    its conjugate, [ABS(x)] by the root of this product. *)
Record qops (K : fops) : Type := Qops {
  qr :> rops K;
  sgn1 : K -> K;
  tiny : K -> bool;
  gtb : K -> K -> bool
}.
Arguments qr {K}. Arguments sgn1 {K}. Arguments tiny {K}. Arguments gtb {K}.

Section Qr.
Context {K : fops} (O : qops K).

(** Library/basic.h:357-372 [_h2_abssqr] *)
Definition abssqr (x : K) : K := (fconj x * x)%F.
(** Library/basic.h:169 [ABS] *)
Definition fabs (x : K) : K := rsqrt O (abssqr x).

(** The squared norm of the part of column [j] starting at row [k]
    (Library/factorizations.c:2198-2201, 2453-2456 and 2564-2567). *)
Definition col_norm2 (a : mat) (rows k j : nat) : prog K K :=
  forS k (rows - k) (fun i s => v <- mload a i j ;; Ret (s + abssqr v)%F) f0.

(** The application of the reflection stored in column [k] of [a] to the vector with the
    entries [c 0, c 1, ...]: the statements from [gamma = ...] on that occur in
    qrdecomp_amatrix, qrdecomp_pivot_amatrix, qrdecomp_rank_amatrix, qreval_amatrix_avector,
    qreval_amatrix and qrexpand_amatrix. *)
Definition apply_refl (a : mat) (rows k : nat) (beta : K) (c : nat -> addr) : prog K unit :=
  g0 <- pload (c k) ;;
  g <- forS (k + 1) (rows - (k + 1)) (fun i g => v <- mload a i k ;; w <- pload (c i) ;; Ret (g + fconj v * w)%F) g0 ;;
  let gamma := (g * beta)%F in
  z <- pload (c k) ;; pstore (c k) (z - gamma)%F ;;;
  for_ (k + 1) (rows - (k + 1)) (fun i => z <- pload (c i) ;; v <- mload a i k ;; pstore (c i) (z - gamma * v)%F).

(** The branch of the decompositions for columns that are not zero
    (Library/factorizations.c:2206-2235, 2497-2526 and 2622-2651). *)
Definition qr_step (a : mat) (tau : vec) (rows cols k : nat) (norm2 : K) : prog K unit :=
  let norm := rsqrt O norm2 in
  diag <- mload a k k ;;
  let adiag := (fabs diag + norm)%F in
  let alpha := (fopp (sgn1 O diag) * norm)%F in
  let beta := (f1 / (norm2 + fabs diag * norm) * (adiag * adiag))%F in
  let gamma := (fconj (sgn1 O diag) / adiag)%F in
  for_ (k + 1) (rows - (k + 1)) (fun i => v <- mload a i k ;; mstore a i k (v * gamma)%F) ;;;
  vstore tau k beta ;;;
  mstore a k k alpha ;;;
  for_ (k + 1) (cols - (k + 1)) (fun j => apply_refl a rows k beta (fun i => ma a i j)).

(** [if (tau->dim < refl) resize_avector(tau, refl)] (Library/factorizations.c:2192-2193, 2441-2442, 2548-2549) *)
Definition qr_tau (a : mat) (tau : vec) : prog K vec :=
  let refl := Nat.min (mrows a) (mcols a) in
  if vdim tau <? refl then resize_avector tau refl else Ret tau.

(** Library/factorizations.c:2178-2239 [qrdecomp_amatrix]; returns the possibly resized
    vector of scaling factors. *)
Definition qrdecomp_amatrix (a : mat) (tau : vec) : prog K vec :=
  let rows := mrows a in
  let cols := mcols a in
  let refl := Nat.min rows cols in
  tau <- qr_tau a tau ;;
  for_ 0 refl (fun k =>
    norm2 <- col_norm2 a rows k k ;;
    if tiny O norm2 then vstore tau k f0 else qr_step a tau rows cols k norm2) ;;;
  Ret tau.

(** The search for the column of maximal norm: index, maximal squared norm and
    squared Frobenius norm (Library/factorizations.c:2452-2469 and 2568-2587). *)
Definition qr_search (a : mat) (rows cols k : nat) : prog K (nat * K * K) :=
  norm2 <- col_norm2 a rows k k ;;
  forS (k + 1) (cols - (k + 1)) (fun j s =>
    let '(jmax, maxnorm2, frob) := s in
    norm2 <- col_norm2 a rows k j ;;
    Ret (if gtb O norm2 maxnorm2 then (j, norm2, (frob + norm2)%F) else (jmax, maxnorm2, (frob + norm2)%F)))
    (k, norm2, norm2).

(** The exchange of columns [k] and [j] of the matrix
    (Library/factorizations.c:2470-2482 and 2583-2595). *)
Definition qr_swap (a : mat) (rows k j : nat) : prog K unit :=
  for_ 0 rows (fun i =>
    alpha <- mload a i k ;; w <- mload a i j ;; mstore a i k w ;;; mstore a i j alpha).

(** The exchange of two entries of an array of indices (same places). *)
Definition swapl (p : list nat) (k j : nat) : list nat :=
  map (fun i => if i =? k then nth j p 0 else if i =? j then nth k p 0 else nth i p 0) (seq 0 (length p)).

(** Library/factorizations.c:2427-2531 [qrdecomp_pivot_amatrix]; returns the vector of scaling factors, the number
    of reflections and the contents of [colpiv].  Simplification: [colpiv] is a list
    instead of an array in memory; without [colpiv] the same list is computed and
    dropped. *)
Definition qrdecomp_pivot_amatrix (a : mat) (tau : vec) : prog K (vec * nat * list nat) :=
  let rows := mrows a in
  let cols := mcols a in
  let refl := Nat.min rows cols in
  tau <- qr_tau a tau ;;
  colpiv <- forS 0 refl (fun k colpiv =>
    s <- qr_search a rows cols k ;;
    let '(jmax, norm2, _) := s in
    (if jmax =? k then Ret tt else qr_swap a rows k jmax) ;;;
    (if tiny O norm2 then vstore tau k f0 else qr_step a tau rows cols k norm2) ;;;
    Ret (if jmax =? k then colpiv else swapl colpiv k jmax))
    (seq 0 cols) ;;
  Ret (tau, refl, colpiv).

(** struct truncmode, the two fields that are used here (Library/truncation.h:24-57). *)
Record trunc := Trunc { tm_frobenius : bool; tm_absolute : bool }.

(** The loop of qrdecomp_rank_amatrix (Library/factorizations.c:2560-2652), [cnt] iterations to go. *)
Fixpoint qr_rank_loop (a : mat) (tau : vec) (rows cols : nat) (tm : option trunc) (eps : K)
  (cnt k : nat) (first : K) (colpiv : list nat) : prog K (nat * list nat) :=
  match cnt with
  | 0 => Ret (k, colpiv)
  | S c =>
      s <- qr_search a rows cols k ;;
      let '(jmax, norm2, frob) := s in
      (if jmax =? k then Ret tt else qr_swap a rows k jmax) ;;;
      let colpiv' := if jmax =? k then colpiv else swapl colpiv k jmax in
      let absolute := match tm with Some t => tm_absolute t | None => false end in
      let frobenius := match tm with Some t => tm_frobenius t | None => false end in
      let first' := if negb absolute && (k =? 0) then (if frobenius then frob else norm2) else first in
      let stop := if absolute then negb (gtb O frob (eps * eps)%F)
                  else if k =? 0 then false else negb (gtb O frob (eps * eps * first')%F) in
      if stop then Ret (k, colpiv')
      else
        (if feqb norm2 f0 then vstore tau k f0 else qr_step a tau rows cols k norm2) ;;;
        qr_rank_loop a tau rows cols tm eps c (k + 1) first' colpiv'
  end.

(** Library/factorizations.c:2533-2656 [qrdecomp_rank_amatrix]; [colpiv] as above.  [x <= y] is
    modelled as the negation of [x > y]. *)
Definition qrdecomp_rank_amatrix (a : mat) (tau : vec) (tm : option trunc) (eps : K) :
  prog K (vec * nat * list nat) :=
  let rows := mrows a in
  let cols := mcols a in
  let refl := Nat.min rows cols in
  tau <- qr_tau a tau ;;
  s <- qr_rank_loop a tau rows cols tm eps refl 0 f0 (seq 0 cols) ;;
  let '(k, colpiv) := s in
  tau <- shrink_avector tau k ;;
  Ret (tau, k, colpiv).

(** Library/factorizations.c:2821-2872 [qreval_amatrix_avector] *)
Definition qreval_amatrix_avector (qtrans : bool) (a : mat) (tau x : vec) : prog K unit :=
  let rows := mrows a in
  let refl := Nat.min (Nat.min rows (mcols a)) (vdim tau) in
  passert (rows <=? vdim x) ;;;
  if qtrans
  then for_ 0 refl (fun k =>
    t <- vload tau k ;;
    let beta := fconj t in
    if feqb beta f0 then Ret tt else apply_refl a rows k beta (va x))
  else fordown refl (fun k =>
    beta <- vload tau k ;;
    if feqb beta f0 then Ret tt else apply_refl a rows k beta (va x)).

(** Library/factorizations.c:2874-2929 [qreval_amatrix] *)
Definition qreval_amatrix (qtrans : bool) (a : mat) (tau : vec) (x : mat) : prog K unit :=
  let rows := mrows a in
  let refl := Nat.min (Nat.min rows (mcols a)) (vdim tau) in
  passert (rows <=? mrows x) ;;;
  if qtrans
  then for_ 0 refl (fun k =>
    t <- vload tau k ;;
    let beta := fconj t in
    if feqb beta f0 then Ret tt
    else for_ 0 (mcols x) (fun j => apply_refl a rows k beta (fun i => ma x i j)))
  else fordown refl (fun k =>
    beta <- vload tau k ;;
    if feqb beta f0 then Ret tt
    else for_ 0 (mcols x) (fun j => apply_refl a rows k beta (fun i => ma x i j))).

(** Library/factorizations.c:2932-2937 [qrsolve_amatrix_avector] *)
Definition qrsolve_amatrix_avector (a : mat) (tau x : vec) : prog K unit :=
  qreval_amatrix_avector true a tau x ;;;
  triangularsolve_amatrix_avector false false false a x.

(** Library/factorizations.c:2939-2967 [qrinvert_amatrix] *)
Definition qrinvert_amatrix (a : mat) : prog K unit :=
  let n := mrows a in
  passert (n =? mcols a) ;;;
  acopy <- init_amatrix n n ;;
  tau <- init_avector n ;;
  copy_amatrix false a acopy ;;;
  tau <- qrdecomp_amatrix acopy tau ;;
  identity_amatrix a ;;;
  for_ 0 n (fun i =>
    b <- init_column_avector a i ;;
    qrsolve_amatrix_avector acopy tau b ;;;
    uninit_avector b) ;;;
  uninit_avector tau ;;;
  uninit_amatrix acopy.

(** Library/factorizations.c:2996-3039 [qrexpand_amatrix] *)
Definition qrexpand_amatrix (a : mat) (tau : vec) (q : mat) : prog K unit :=
  let rows := mrows a in
  let refl := Nat.min (Nat.min (mcols q) (vdim tau)) (Nat.min (mrows a) (mcols a)) in
  passert (rows <=? mrows q) ;;;
  passert (mcols q <=? rows) ;;;
  for_ 0 (mcols q) (fun j =>
    for_ 0 rows (fun i => mstore q i j f0) ;;; mstore q j j f1) ;;;
  fordown refl (fun k =>
    beta <- vload tau k ;;
    if feqb beta f0 then Ret tt
    else for_ k (mcols q - k) (fun j => apply_refl a rows k beta (fun i => ma q i j))).
End Qr.
