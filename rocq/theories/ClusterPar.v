(** * Model of the parallel traversal of cluster trees *)
From Coq Require Import Arith Lia List Bool.
From Verif Require Import Fld Ord Prog Arr Par Cluster.
Import ListNotations.

(** A call of a callback that may be null. *)
Definition tcall {K : ofops} {F : Type} (f : option (cluster K -> nat -> prog F unit)) (t : cluster K) (n : nat) : thr F :=
  Tp (match f with Some f => f t n | None => Ret tt end).

(** A loop whose iterations are threads if [par] holds. *)
Definition tloop {F : Type} (par : bool) (l : list (thr F)) : thr F :=
  if par then Tpar l else fold_right Tseq (Tp (Ret tt)) l.

(** iterate_parallel_cluster, Library/cluster.c:848-888.  The callbacks are
    programs on a memory with cells in [F]; the function returns the thread
    that performs the traversal.  The array [tname1] holds the numbers of the
    sons, as in the code.  Simplification: the array is not part of the memory
    (every invocation has its own). *)
Fixpoint iterate_parallel {K : ofops} {F : Type} (pre post : option (cluster K -> nat -> prog F unit))
  (t : cluster K) (tname pardepth : nat) : res (thr F) :=
  match t with
  | Cl _ _ sons _ _ _ _ _ =>
    let* body :=
      if 0 <? length sons then
        let* (tname1, tname2) := rfold (fun s '(tname1, tname2) =>
          let* d := get_desc s in Ok (tname1 ++ [tname2], tname2 + d)) sons ([], tname + 1) in
        let* d := get_desc t in
        do* rassert (tname2 =? tname + d) in
        let* l := (fix go l names := match l, names with
          | [], _ => Ok []
          | s :: l', n :: names' =>
            let* th := iterate_parallel pre post s n (if 0 <? pardepth then pardepth - 1 else 0) in
            let* ths := go l' names' in
            Ok (th :: ths)
          | _ :: _, [] => Err EBounds
          end) sons tname1 in
        Ok (tloop (0 <? pardepth) l)
      else Ok (Tp (Ret tt)) in
    Ok (Tseq (tcall pre t tname) (Tseq body (tcall post t tname)))
  end.

(** The callbacks as functions on memories, to use them with [iterate_cluster]. *)
Definition lift_cb {K : ofops} {F : Type} (f : option (cluster K -> nat -> prog F unit)) :
  option (cluster K -> nat -> mem F -> res (mem F)) :=
  option_map (fun f c n m => let* x := run (f c n) m in Ok (snd x)) f.
