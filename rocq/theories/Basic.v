(** * Model of Library/basic.c: memory allocation and sorting

    Byte counts are of type [size_t], modelled by binary numbers modulo 2^64.  Indices in
    [heapsort] are of type [uint], modelled by natural numbers modulo 2^32.

    Simplifications: a memory block is its number of bytes and the header written by the tracing
    version; the rest of its contents is not modelled.  The accesses to [current_memory] are atomic
    in the parallel version, so one sequential history stands for any schedule.  [abort] ends the
    program. *)
From Coq Require Import Arith Lia List Bool ZArith.
From Verif Require Import Fld Prog Arr.
Import ListNotations.

(** ** Memory management *)

Definition w64 (x : N) : N := (x mod 2 ^ 64)%N.

(** A block of the C heap: its size in bytes and the [size_t] stored at its start, if any. *)
Record hblock := HB { hb_id : nat; hb_bytes : N; hb_head : option N }.
Record heap := Heap { hp_blocks : list hblock; hp_next : nat; hp_cur : N }.
(** A pointer: block and offset in bytes, [None] is [NULL]. *)
Definition hptr := option (nat * N).
Inductive aout := Abort | Done (p : hptr) (h : heap).

Definition hp_find (h : heap) (id : nat) : option hblock := find (fun b => hb_id b =? id) (hp_blocks h).

(** [malloc]: whether it succeeds is decided by [ok]. *)
Definition h2_malloc (ok : heap -> N -> bool) (sz : N) (h : heap) : option nat * heap :=
  if ok h sz then (Some (hp_next h), Heap (HB (hp_next h) sz None :: hp_blocks h) (S (hp_next h)) (hp_cur h)) else (None, h).

(** [*((size_t * ) ptr) = sz] *)
Definition put_head (id : nat) (sz : N) (h : heap) : res heap :=
  match hp_find h id with
  | None => Err EBounds
  | Some b => if (hb_bytes b <? 8)%N then Err EBounds else
      Ok (Heap (map (fun b => if hb_id b =? id then HB id (hb_bytes b) (Some sz) else b) (hp_blocks h)) (hp_next h) (hp_cur h))
  end.

Section Alloc.
(** [tr] is [None] without TRACE_MEMORY, otherwise [Some ALLOC_OFFSET]; ALLOC_OFFSET is
    [sizeof(size_t)] or [VALIGN] (Library/basic.c:99-103). *)
Context (tr : option N) (ok : heap -> N -> bool).
Definition aoff : N := match tr with Some o => o | None => 0 end.

(** The common second half of all the functions: call [malloc], stop if it fails, and, when tracing,
    store the size in front of the memory returned and add it to [current_memory]
    (Library/basic.c:112-126 and the last lines of the other functions; without tracing 284-291 etc.). *)
Definition alloc_tail (dsz : N) (h : heap) : res aout :=
  let '(p, h) := h2_malloc ok dsz h in
  match p, (0 <? dsz)%N with
  | None, true => Ok Abort
  | _, _ =>
      match tr with
      | None => Ok (Done (match p with Some id => Some (id, 0%N) | None => None end) h)
      | Some o =>
          match p with
          | None => Err ENull
          | Some id => let* h := put_head id dsz h in Ok (Done (Some (id, o)) (Heap (hp_blocks h) (hp_next h) (w64 (hp_cur h + dsz))))
          end
      end
  end.

(** Library/basic.c:105-127 and 279-292 [_h2_allocmem] *)
Definition allocmem (sz : N) (h : heap) : res aout := alloc_tail (w64 (sz + aoff)) h.

(** Library/basic.c:129-158 and 294-316 [_h2_allocuint]; the same with [sizeof(real)] and
    [sizeof(field)]: 160-189 and 318-340 [_h2_allocreal], 191-220 and 342-364 [_h2_allocfield] *)
Definition allocvec (sizeof sz : N) (h : heap) : res aout :=
  let dsz := w64 (w64 (sizeof * sz) + aoff) in
  if negb (w64 (dsz + 2 ^ 64 - aoff) / sizeof =? sz)%N then Ok Abort else alloc_tail dsz h.

(** Library/basic.c:222-252 and 366-389 [_h2_allocmatrix] *)
Definition allocmatrix (sizeof rows cols : N) (h : heap) : res aout :=
  let dsz := w64 (w64 (w64 (sizeof * rows) * cols) + aoff) in
  if negb (w64 (dsz + 2 ^ 64 - aoff) / sizeof =? w64 (rows * cols))%N then Ok Abort else alloc_tail dsz h.

(** [h2_free] *)
Definition h2_free (id : nat) (h : heap) : res heap :=
  match hp_find h id with
  | None => Err EBounds
  | Some _ => Ok (Heap (filter (fun b => negb (hb_id b =? id)) (hp_blocks h)) (hp_next h) (hp_cur h))
  end.

(** Library/basic.c:254-271 and 391-397 [freemem] *)
Definition freemem (p : hptr) (h : heap) : res heap :=
  match p with
  | None => Ok h
  | Some (id, o) =>
      match tr with
      | None => if (o =? 0)%N then h2_free id h else Err EBounds
      | Some off =>
          if negb (o =? off)%N then Err EBounds else
          match hp_find h id with
          | None => Err EBounds
          | Some b =>
              match hb_head b with
              | None => Err EUninit
              | Some sz =>
                  let* h := h2_free id h in
                  do* rassert (sz <=? hp_cur h)%N in
                  Ok (Heap (hp_blocks h) (hp_next h) (w64 (hp_cur h + 2 ^ 64 - sz)))
              end
          end
      end
  end.
End Alloc.

(** ** Sorting *)

Definition w32 (x : nat) : nat := N.to_nat (N.of_nat x mod 2 ^ 32).

Section Sort.
(** The callbacks; they may fail, e.g. for indices that are too large. *)
Context {S : Type} (leq : nat -> nat -> S -> res bool) (swap : nat -> nat -> S -> res S).

(** Library/basic.c:412-433 [heap_down]: the loop, [fuel] bounds the number of steps. *)
Fixpoint heap_loop (fuel root child n : nat) (s : S) : res S :=
  if negb (child <? n) then Ok s else
  match fuel with
  | O => Err EFuel
  | Datatypes.S fuel =>
      let* c := (if w32 (child + 1) <? n then leq child (w32 (child + 1)) s else Ok false) in
      let child := if c then w32 (child + 1) else child in
      let* c := leq root child s in
      if c then
        let* s := swap root child s in
        heap_loop fuel child (w32 (2 * child + 1)) n s
      else Ok s
  end.
Definition heap_down (root n : nat) (s : S) : res S := heap_loop n root (w32 (2 * root + 1)) n s.

(** Library/basic.c:435-458 [_h2_heapsort], the two loops *)
Fixpoint heap_build (root n : nat) (s : S) : res S :=
  match root with
  | O => Ok s
  | Datatypes.S root => let* s := heap_down root n s in heap_build root n s
  end.
Fixpoint heap_sort (n : nat) (s : S) : res S :=
  match n with
  | Datatypes.S (Datatypes.S _ as n) => let* s := swap 0 n s in let* s := heap_down 0 n s in heap_sort n s
  | _ => Ok s
  end.
Definition heapsort (n : nat) (s : S) : res S :=
  if n <? 2 then Ok s else let* s := heap_build (n / 2) n s in heap_sort n s.
End Sort.
