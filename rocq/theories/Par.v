(** * Threads and interleavings

    [#pragma omp parallel for] lets the iterations of a loop run as threads
    whose loads and stores interleave in any order (/repo/Library/cluster.c:
    877-884, /repo/Library/block.c:984-991 and others).  This file gives the
    small-step semantics of such programs and a specification of freedom from
    races that looks at the sequential execution only.  Weak memory effects are
    not modelled: single loads and stores are atomic and take effect at once
    (race-free OpenMP programs cannot observe more). *)
From Coq Require Import Arith Lia List Bool.
From Verif Require Import Fld Prog.
Import ListNotations.

(** A thread: a program, two threads one after the other, or a parallel loop. *)
Inductive thr (K : Type) :=
| Tp (p : prog K unit)
| Tseq (t1 t2 : thr K)
| Tpar (l : list (thr K)).
Arguments Tp {K}. Arguments Tseq {K}. Arguments Tpar {K}.

Fixpoint tdone {K} (t : thr K) : Prop :=
  match t with
  | Tp p => p = Ret tt
  | Tseq t1 t2 => tdone t1 /\ tdone t2
  | Tpar l => (fix go l := match l with [] => True | t :: l' => tdone t /\ go l' end) l
  end.

(** One memory access of one thread. *)
Inductive step {K} : mem K -> thr K -> mem K -> thr K -> Prop :=
| step_ld m a v k : get m a = Val v -> step m (Tp (Ld a k)) m (Tp (k v))
| step_st m a v k : get m a <> Free -> step m (Tp (St a v k)) (upd m a v) (Tp k)
| step_new m n k : step m (Tp (New n k)) (alloc m n) (Tp (k (next m)))
| step_del m b k : b < next m -> step m (Tp (Del b k)) (dealloc m b) (Tp k)
| step_seq1 m m' t1 t1' t2 : step m t1 m' t1' -> step m (Tseq t1 t2) m' (Tseq t1' t2)
| step_seq2 m m' t1 t2 t2' : tdone t1 -> step m t2 m' t2' -> step m (Tseq t1 t2) m' (Tseq t1 t2')
| step_par m m' l1 t t' l2 : step m t m' t' -> step m (Tpar (l1 ++ t :: l2)) m' (Tpar (l1 ++ t' :: l2)).

(** [n] accesses in some order that the threads allow. *)
Inductive steps {K} : nat -> mem K -> thr K -> mem K -> thr K -> Prop :=
| steps_0 m t : steps 0 m t m t
| steps_S n m t m1 t1 m' t' : step m t m1 t1 -> steps n m1 t1 m' t' -> steps (S n) m t m' t'.

(** The program that runs everything in the order of the source text. *)
Fixpoint seqprog {K} (t : thr K) : prog K unit :=
  match t with
  | Tp p => p
  | Tseq t1 t2 => seqprog t1 ;;; seqprog t2
  | Tpar l => (fix go l := match l with [] => Ret tt | t :: l' => seqprog t ;;; go l' end) l
  end.

(** ** Accesses of the sequential execution *)
Inductive access := Rd (a : addr) | Wr (a : addr).
Definition touches (a : addr) (l : list access) : Prop := In (Rd a) l \/ In (Wr a) l.
(** Two lists of accesses conflict if one writes a cell the other uses. *)
Definition conflict_free (l1 l2 : list access) : Prop :=
  forall a, (In (Wr a) l1 -> ~ touches a l2) /\ (In (Wr a) l2 -> ~ touches a l1).

(** [ptrace m p l m']: [p] terminates without error and without allocating, and
    [l] lists its accesses. *)
Inductive ptrace {K} : mem K -> prog K unit -> list access -> mem K -> Prop :=
| pt_ret m : ptrace m (Ret tt) [] m
| pt_ld m a v k l m' : get m a = Val v -> ptrace m (k v) l m' -> ptrace m (Ld a k) (Rd a :: l) m'
| pt_st m a v k l m' : get m a <> Free -> ptrace (upd m a v) k l m' -> ptrace m (St a v k) (Wr a :: l) m'.

(** [race_free m t l m']: run in the order of the source text, [t] terminates in
    [m'] with the accesses [l], and the iterations of every parallel loop are
    free of conflicts. *)
Inductive race_free {K} : mem K -> thr K -> list access -> mem K -> Prop :=
| rf_prog m p l m' : ptrace m p l m' -> race_free m (Tp p) l m'
| rf_seq m t1 t2 l1 m1 l2 m2 : race_free m t1 l1 m1 -> race_free m1 t2 l2 m2 ->
    race_free m (Tseq t1 t2) (l1 ++ l2) m2
| rf_par m ts ls m' : race_frees m ts ls m' -> ForallOrdPairs conflict_free ls ->
    race_free m (Tpar ts) (concat ls) m'
with race_frees {K} : mem K -> list (thr K) -> list (list access) -> mem K -> Prop :=
| rfs_nil m : race_frees m [] [] m
| rfs_cons m t l m1 ts ls m2 : race_free m t l m1 -> race_frees m1 ts ls m2 ->
    race_frees m (t :: ts) (l :: ls) m2.

(** Memories with the same contents. *)
Definition meq {K} (m m' : mem K) : Prop := next m = next m' /\ forall a, get m a = get m' a.

(** [within R W p]: whatever it reads, [p] only loads cells of [R] or [W], only
    stores to cells of [W], and does not allocate or release memory. *)
Fixpoint within {K A} (R W : addr -> Prop) (p : prog K A) : Prop :=
  match p with
  | Ret _ | Fail _ => True
  | Ld a k => (R a \/ W a) /\ forall v, within R W (k v)
  | St a _ k => W a /\ within R W k
  | New _ _ | Del _ _ => False
  end.

(** Two footprints do not interfere. *)
Definition apart (R1 W1 R2 W2 : addr -> Prop) : Prop :=
  (forall a, W1 a -> ~ R2 a /\ ~ W2 a) /\ (forall a, W2 a -> ~ R1 a /\ ~ W1 a).

(** All executions of a thread end in the same memory as its sequential
    execution, after the same number of steps, and none of them gets stuck. *)
Definition deterministic {K} (m : mem K) (t : thr K) (m' : mem K) : Prop :=
  run (seqprog t) m = Ok (tt, m') /\
  exists len, forall n m1 t1, steps n m t m1 t1 ->
    n <= len /\ (tdone t1 -> n = len /\ meq m1 m') /\ (tdone t1 \/ exists m2 t2, step m1 t1 m2 t2).
