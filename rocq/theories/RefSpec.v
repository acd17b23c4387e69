(** * Vocabulary for reference counting *)
From Coq Require Import Arith Lia List Bool.
From Verif Require Import Prog HmSpec RefHeap.
Import ListNotations.

(** The kind of structure the counted pointer number [i] of a structure of kind [k] points to *)
Definition target (k : kind) (i : nat) : kind :=
  match k with
  | KB | KU | KVB => KB
  | KM | KVM => KM
  | KO | KVO => KO
  | KH => if i <? 2 then KB else KH
  | KVH => KH
  end.
Definition istree (k : kind) : Prop := k = KB \/ k = KM \/ k = KO.
Definition isvar (k : kind) : Prop := k = KVB \/ k = KVM \/ k = KVO \/ k = KVH.

Definition live (s : heap) (x : nat) (k : kind) : Prop := exists n, hp s x = Some n /\ nk n = k.
(** The counted pointer [i] of [p] has the value [t]. *)
Definition points (s : heap) (p i : nat) (t : option nat) : Prop := exists n, hp s p = Some n /\ nth_error (nc n) i = Some t.

(** The number of counted pointers to [x] *)
Definition occurs (c : list (option nat)) (x : nat) : nat := length (filter (fun p => ptr_eqb p (Some x)) c).
Definition refcount (s : heap) (x : nat) : nat := nsum (nx s) (fun p => match hp s p with Some n => occurs (nc n) x | None => 0 end).

(** A doubly linked list with elements [l]: [next] and [prev] are the pointers, [first] points to the first
    element, whose predecessor is [before]. *)
Fixpoint chain (next prev : nat -> option nat) (before first : option nat) (l : list nat) : Prop :=
  match l with
  | [] => first = None
  | u :: l' => first = Some u /\ prev u = before /\ chain next prev (Some u) (next u) l'
  end.
Definition next_of (s : heap) (sd : bool) (u : nat) : option nat := match hp s u with Some n => nn n sd | None => None end.
Definition prev_of (s : heap) (sd : bool) (u : nat) : option nat := match hp s u with Some n => np n sd | None => None end.

(** Heaps in which all counters and lists are correct:
    the counter of a structure is the number of pointers to it;
    counted pointers lead to structures of the right kind that have not been released;
    the row (column) list of a cluster basis is a doubly linked list that contains each uniform matrix
    with this row (column) basis once and nothing else;
    the uniform matrix of an H2-matrix has not been released and belongs to no other H2-matrix. *)
Record wf (s : heap) : Prop := {
  wf_next : forall x n, hp s x = Some n -> x < nx s;
  wf_shape : forall x n, hp s x = Some n -> (nk n = KU -> length (nc n) = 2) /\ (nk n = KH -> 2 <= length (nc n)) /\
    (nk n <> KB -> forall sd, nl n sd = None) /\ (nk n <> KH -> nu n = None);
  wf_refs : forall x n, hp s x = Some n -> nr n = refcount s x;
  wf_points : forall p n i t, hp s p = Some n -> nth_error (nc n) i = Some (Some t) -> live s t (target (nk n) i);
  wf_lists : forall b n sd, hp s b = Some n -> nk n = KB -> exists l, NoDup l /\
    (forall u, In u l <-> live s u KU /\ points s u (side sd) (Some b)) /\
    chain (next_of s sd) (prev_of s sd) None (nl n sd) l;
  wf_owned : forall x n u, hp s x = Some n -> nu n = Some u -> live s u KU;
  wf_owner : forall x n y m u, hp s x = Some n -> nu n = Some u -> hp s y = Some m -> nu m = Some u -> x = y }.

(** ** Conditions for the operations *)
(** The structure [x] is kept alive by something else than the counted pointer [i] of [o]: nobody
    refers to it yet, or a structure of another kind does, or another structure that is kept alive. *)
Inductive held (s : heap) (o i : nat) : nat -> Prop :=
| held_new x n : hp s x = Some n -> nr n = 0 -> nk n <> KU -> held s o i x
| held_out p n j x : hp s p = Some n -> nk n <> target (nk n) j -> nth_error (nc n) j = Some (Some x) -> (p, j) <> (o, i) -> held s o i x
| held_in p n j x : hp s p = Some n -> nk n = target (nk n) j -> held s o i p -> nth_error (nc n) j = Some (Some x) -> (p, j) <> (o, i) -> held s o i x.

(** The structure [x] and everything it refers to have no null pointers; the depth is at most [d]. *)
Fixpoint complete (s : heap) (d : nat) (x : nat) : Prop :=
  match d with
  | 0 => False
  | S d' => exists n, hp s x = Some n /\
      (forall i p, nth_error (nc n) i = Some p -> exists y, p = Some y /\ complete s d' y) /\
      (forall u, nu n = Some u -> complete s d' u)
  end.
Definition complete_opt (s : heap) (d : nat) (p : option nat) : Prop := match p with Some x => complete s d x | None => True end.
Definition live_opt (s : heap) (p : option nat) (k : kind) : Prop := match p with Some x => live s x k | None => True end.

(** The pointer [i] of [o] of kind [k] may be replaced by [t]: the present value can be released, [o] and
    [t] survive this. *)
Definition ref_ok (fuel : nat) (s : heap) (k : kind) (o i : nat) (t : option nat) : Prop :=
  exists n p, hp s o = Some n /\ nk n <> KU /\ nth_error (nc n) i = Some p /\ target (nk n) i = k /\
    complete_opt s fuel p /\ (nk n = k -> held s o i o) /\
    match t with Some y => live s y k /\ held s o i y | None => True end.
(** The uniform matrix [u] can be removed from its list: the basis can be released, or there is no basis
    and the list pointers are null. *)
Definition unref_ok (fuel : nat) (s : heap) (sd : bool) (u : nat) : Prop :=
  exists n p, hp s u = Some n /\ nk n = KU /\ nth_error (nc n) (side sd) = Some p /\
    match p with Some b => complete s fuel b | None => nn n sd = None /\ np n sd = None end.

Definition op_ok (fuel : nat) (s : heap) (o : op) : Prop :=
  match o with
  | OVar k => isvar k
  | ONewTree k n => istree k
  | ONewUniform rb cb => (exists r, rb = Some r /\ live s r KB) /\ (exists c, cb = Some c /\ live s c KB)
  | ONewH2 rb cb n => live_opt s rb KB /\ live_opt s cb KB
  | ONewUniformH2 rb cb => (exists r, rb = Some r /\ live s r KB) /\ (exists c, cb = Some c /\ live s c KB)
  | ORefTree o i t => exists k, istree k /\ ref_ok fuel s k o i t
  | ORefH2 o i t => ref_ok fuel s KH o i t
  | ORefUniform sd u t => exists n p, hp s u = Some n /\ nk n = KU /\ nth_error (nc n) (side sd) = Some p /\
      (p = t \/ complete_opt s fuel p /\ match t with Some y => live s y KB /\ held s u (side sd) y | None => True end)
  | OUnrefUniform sd u => unref_ok fuel s sd u
  | ODelTree x => exists k n, istree k /\ hp s x = Some n /\ nk n = k /\ nr n = 0 /\ complete s (S fuel) x
  | ODelUniform u => unref_ok fuel s false u /\ unref_ok fuel s true u /\ (forall x n, hp s x = Some n -> nu n <> Some u)
  | ODelH2 x => exists n, hp s x = Some n /\ nk n = KH /\ nr n = 0 /\ complete s (S fuel) x
  end.
(** Histories in which every operation is admissible when it is called *)
Inductive legal (fuel : nat) : heap -> list op -> Prop :=
| legal_nil s : legal fuel s []
| legal_cons s o l : op_ok fuel s o -> (forall s', exec fuel o s = Ok s' -> legal fuel s' l) -> legal fuel s (o :: l).

(** No cycles: the structures can be ranked such that pointers lead to lower ranks. *)
Definition acyclic (s : heap) : Prop := exists rk : nat -> nat, (forall p i t, points s p i (Some t) -> rk t < rk p) /\
  (forall x n u, hp s x = Some n -> nu n = Some u -> rk u < rk x).
(** The caller holds nothing: all variables are null, there are no structures that were created and
    never referenced, and all uniform matrices belong to H2-matrices. *)
Definition nothing_held (s : heap) : Prop :=
  (forall v n i t, hp s v = Some n -> isvar (nk n) -> nth_error (nc n) i <> Some (Some t)) /\
  (forall x n, hp s x = Some n -> nr n = 0 -> isvar (nk n) \/ nk n = KU) /\
  (forall u, live s u KU -> exists x n, hp s x = Some n /\ nu n = Some u).
