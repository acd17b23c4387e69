(** * Truncation strategies, Library/truncation.c *)
From Coq Require Import Arith Lia List Bool.
From Verif Require Import Fld Ord Prog View.
Import ListNotations.

(** struct _truncmode, Library/truncation.h:42-55; the fields [blocks], [zeta_level] and
    [zeta_age] do not influence [findrank_truncmode] and are omitted. *)
Record truncmode := Tm { tm_frobenius : bool; tm_absolute : bool }.

Section Trunc.
Context {K : ofops}.

(** Library/truncation.c:113-116 and 125-128: the loop
    [while (k > 0 && (sum += ABSSQR(sigma->v[k-1])) <= bound) k--]. *)
Fixpoint findrank_frob (sigma : vec) (bound : K) (k : nat) (sum : K) : prog K nat :=
  match k with
  | O => Ret O
  | S k' =>
      v <- vload sigma k' ;;
      let sum := (sum + v * v)%F in
      if fleb sum bound then findrank_frob sigma bound k' sum else Ret k
  end.

(** Library/truncation.c:133-135 and 138-140: the loop
    [while (k < sigma->dim && sigma->v[k] > bound) k++], where the bound is evaluated in each
    step; [n] is [sigma->dim - k]. *)
Fixpoint findrank_eucl (sigma : vec) (bound : prog K K) (n k : nat) : prog K nat :=
  match n with
  | O => Ret k
  | S n' =>
      v <- vload sigma k ;;
      b <- bound ;;
      if flt b v then findrank_eucl sigma bound n' (S k) else Ret k
  end.

(** Library/truncation.c:104-145 [findrank_truncmode]; [None] is the null pointer. *)
Definition findrank_truncmode (tm : option truncmode) (eps : K) (sigma : vec) : prog K nat :=
  let frobenius := match tm with Some t => tm_frobenius t | None => false end in
  let absolute := match tm with Some t => tm_absolute t | None => false end in
  if frobenius then
    if absolute then findrank_frob sigma (eps * eps)%F (vdim sigma) f0
    else
      norm <- forS 0 (vdim sigma) (fun k norm => v <- vload sigma k ;; Ret (norm + v * v)%F) f0 ;;
      findrank_frob sigma (eps * eps * norm)%F (vdim sigma) f0
  else
    if absolute then findrank_eucl sigma (Ret eps) (vdim sigma) 0
    else findrank_eucl sigma (v <- vload sigma 0 ;; Ret (eps * v)%F) (vdim sigma) 0.

(** Library/truncation.c:13-102: the standard strategies. *)
Definition new_releucl_truncmode := Tm false false.
Definition new_relfrob_truncmode := Tm true false.
Definition new_blockreleucl_truncmode := Tm false true.
Definition new_blockrelfrob_truncmode := Tm true true.
Definition new_abseucl_truncmode := Tm false true.
End Trunc.
