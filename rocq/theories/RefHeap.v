(** * Reference counting and lists of uniform matrices

    Library/clusterbasis.c:20-184, Library/hmatrix.c:20-246, Library/h2matrix.c:20-107 and 238-291,
    Library/clusteroperator.c:20-160, Library/uniform.c:16-125: the functions that create, reference,
    release and delete cluster bases, H-matrices, H2-matrices, cluster operators and uniform
    matrices.

    The heap contains the structures.  All of them are described by one record type with the union of
    the fields: the counter [refs], the pointers that are protected by reference counting, the heads
    of the row and column list of a cluster basis, the list pointers of a uniform matrix and the
    pointer [u] of an H2-matrix.  A variable of the caller that is used as first argument of a "ref"
    function is also a structure with one pointer.  An access to a structure that has been released
    is the error [EBounds].  Simplifications: the numbers and matrices inside the structures are not
    part of this model (see Clusterbasis.v, Hmatrix.v, H2matrix.v), nor are the counters of active
    objects and the atomic updates for OpenMP; counters do not overflow; the recursion depth is
    limited by a number [fuel], exceeding it is the error [EFuel]. *)
From Coq Require Import Arith Lia List Bool.
From Verif Require Import Prog.
Import ListNotations.

(** Kinds of structures: cluster bases, H-matrices, cluster operators, H2-matrices, uniform matrices
    and variables for pointers to the first four of these. *)
Inductive kind := KB | KM | KO | KH | KU | KVB | KVM | KVO | KVH.

(** [nr]: refs.  [nc]: the counted pointers; these are [son] of cluster bases, H-matrices and
    operators, [rb], [cb] for uniform matrices, [rb], [cb] followed by [son] for H2-matrices, the
    value of a variable.  [nl]: rlist and clist of a cluster basis (Library/clusterbasis.h:64-70).
    [nn], [np]: rnext, rprev, cnext, cprev of a uniform matrix (Library/uniform.h:69-84).  [nu]: u of
    an H2-matrix.  The first argument of the lists selects rows ([false]) or columns ([true]). *)
Record node := Node { nk : kind; nr : nat; nc : list (option nat);
  nl : bool -> option nat; nn : bool -> option nat; np : bool -> option nat; nu : option nat }.
Record heap := Heap { hp : nat -> option node; nx : nat }.

Declare Scope res_scope.
Notation "x <~ a ; b" := (rbind a (fun x => b)) (at level 61, a at next level, right associativity) : res_scope.
Notation "a ;- b" := (rbind a (fun _ => b)) (at level 61, right associativity) : res_scope.
Open Scope res_scope.
(** assert(c) *)
Definition rassert (c : bool) : res unit := if c then Ok tt else Err EAssert.

(** ** Access to the heap *)
Definition getn (s : heap) (x : nat) : res node := match hp s x with Some n => Ok n | None => Err EBounds end.
Definition put (s : heap) (x : nat) (v : option node) : heap := Heap (fun y => if y =? x then v else hp s y) (nx s).
Definition slot (n : node) (i : nat) : res (option nat) := match nth_error (nc n) i with Some p => Ok p | None => Err EBounds end.
Fixpoint lset {A} (l : list A) (i : nat) (v : A) : list A :=
  match l, i with
  | [], _ => []
  | _ :: l', 0 => v :: l'
  | a :: l', S i' => a :: lset l' i' v
  end.
Definition sset (f : bool -> option nat) (sd : bool) (v : option nat) (sd' : bool) : option nat := if Bool.eqb sd sd' then v else f sd'.
Definition with_r (n : node) r := Node (nk n) r (nc n) (nl n) (nn n) (np n) (nu n).
Definition with_c (n : node) i p := Node (nk n) (nr n) (lset (nc n) i p) (nl n) (nn n) (np n) (nu n).
Definition with_l (n : node) sd p := Node (nk n) (nr n) (nc n) (sset (nl n) sd p) (nn n) (np n) (nu n).
Definition with_n (n : node) sd p := Node (nk n) (nr n) (nc n) (nl n) (sset (nn n) sd p) (np n) (nu n).
Definition with_p (n : node) sd p := Node (nk n) (nr n) (nc n) (nl n) (nn n) (sset (np n) sd p) (nu n).
Definition with_u (n : node) p := Node (nk n) (nr n) (nc n) (nl n) (nn n) (np n) p.
(** [x->field = ...] *)
Definition update (s : heap) (x : nat) (f : node -> node) : res heap := n <~ getn s x ; Ok (put s x (Some (f n))).
Definition null : bool -> option nat := fun _ => None.
Definition isnull (p : option nat) : bool := match p with None => true | Some _ => false end.
Definition ptr_eqb (p q : option nat) : bool :=
  match p, q with Some x, Some y => x =? y | None, None => true | _, _ => false end.
(** [allocmem] and the initialisation of the pointers *)
Definition alloc (s : heap) (k : kind) (c : list (option nat)) : nat * heap :=
  (nx s, Heap (fun y => if y =? nx s then Some (Node k 0 c null null null None) else hp s y) (S (nx s))).

(** A loop over [n] counted pointers from number [i], each of them is released *)
Fixpoint sonloop (un : nat -> heap -> res heap) (x : nat) (n i : nat) (s : heap) : res heap :=
  match n with
  | 0 => Ok s
  | S n' =>
      nd <~ getn s x ;
      p <~ slot nd i ;
      match p with
      | None => Err ENull
      | Some y => s' <~ un y s ; sonloop un x n' (S i) s'
      end
  end.

(** ** Cluster bases, H-matrices, cluster operators *)

(** Constructors: Library/clusterbasis.c:24-79, 121-143 [new_clusterbasis], [new_leaf_clusterbasis];
    Library/hmatrix.c:20-38, 74-139 [new_hmatrix] and variants; Library/clusteroperator.c:20-54, 82-104
    [new_clusteroperator], [new_leaf_clusteroperator]; [n] is the number of sons *)
Definition new_tree (k : kind) (n : nat) (s : heap) : nat * heap := alloc s k (repeat None n).

(** Library/clusterbasis.c:96-119, 145-151 [uninit_clusterbasis], [del_clusterbasis];
    Library/hmatrix.c:40-62, 209-218 [uninit_hmatrix], [del_hmatrix];
    Library/clusteroperator.c:57-80, 106-112 [uninit_clusteroperator], [del_clusteroperator].
    Only cluster bases have lists. *)
Definition del_tree (un : nat -> heap -> res heap) (x : nat) (s : heap) : res heap :=
  n <~ getn s x ;
  rassert (nr n =? 0) ;-
  rassert (isnull (nl n false)) ;-
  rassert (isnull (nl n true)) ;-
  s <~ sonloop un x (length (nc n)) 0 s ;
  Ok (put s x None).

(** Library/clusterbasis.c:171-180 [unref_clusterbasis], Library/hmatrix.c:236-245 [unref_hmatrix],
    Library/clusteroperator.c:148-161 [unref_clusteroperator] *)
Fixpoint unref_tree (fuel : nat) (x : nat) (s : heap) : res heap :=
  match fuel with
  | 0 => Err EFuel
  | S fuel' =>
      n <~ getn s x ;
      rassert (0 <? nr n) ;-
      s <~ Ok (put s x (Some (with_r n (nr n - 1)))) ;
      n <~ getn s x ;
      if nr n =? 0 then del_tree (unref_tree fuel') x s else Ok s
  end.

(** Library/clusterbasis.c:159-169 [ref_clusterbasis], Library/hmatrix.c:224-234 [ref_hmatrix],
    Library/clusteroperator.c:133-146 [ref_clusteroperator], Library/h2matrix.c:270-280
    [ref_h2matrix]; the pointer [ptr] is number [i] of the structure [o] *)
Definition ref_with (un : nat -> heap -> res heap) (o i : nat) (t : option nat) (s : heap) : res heap :=
  n <~ getn s o ;
  p <~ slot n i ;
  s <~ match p with Some x => un x s | None => Ok s end ;
  s <~ update s o (fun n => with_c n i t) ;
  match t with Some y => update s y (fun n => with_r n (nr n + 1)) | None => Ok s end.
Definition ref_tree (fuel : nat) := ref_with (unref_tree fuel).

(** ** Uniform matrices *)
(** The number of the pointer [rb] or [cb] *)
Definition side (sd : bool) : nat := if sd then 1 else 0.

(** Library/uniform.c:102-109, 125-132: the part of [unref_row_uniform] and [unref_col_uniform] that
    removes [u] from the list of the basis [b] *)
Definition unlink (sd : bool) (u b : nat) (s : heap) : res heap :=
  n <~ getn s u ;
  s <~ match nn n sd with Some v => update s v (fun m => with_p m sd (np n sd)) | None => Ok s end ;
  n <~ getn s u ;
  s <~ match np n sd with Some v => update s v (fun m => with_n m sd (nn n sd)) | None => Ok s end ;
  nb <~ getn s b ;
  n <~ getn s u ;
  if ptr_eqb (nl nb sd) (Some u) then update s b (fun m => with_l m sd (nn n sd)) else Ok s.

(** Library/uniform.c:93-114 [unref_row_uniform] and 116-137 [unref_col_uniform] *)
Definition unref_uniform (fuel : nat) (sd : bool) (u : nat) (s : heap) : res heap :=
  n <~ getn s u ;
  b <~ slot n (side sd) ;
  match b with
  | None =>
      rassert (isnull (nn n sd)) ;-
      rassert (isnull (np n sd)) ;-
      Ok s
  | Some b =>
      s <~ unlink sd u b s ;
      s <~ unref_tree fuel b s ;
      update s u (fun m => with_c m (side sd) None)
  end.

(** Library/uniform.c:65-69, 86-90: the part of [ref_row_uniform] and [ref_col_uniform] that puts [u] at
    the head of the list of [b] *)
Definition link (sd : bool) (u b : nat) (s : heap) : res heap :=
  nb <~ getn s b ;
  s <~ update s u (fun m => with_n m sd (nl nb sd)) ;
  s <~ update s u (fun m => with_p m sd None) ;
  nb <~ getn s b ;
  s <~ match nl nb sd with Some v => update s v (fun m => with_p m sd (Some u)) | None => Ok s end ;
  update s b (fun m => with_l m sd (Some u)).

(** Library/uniform.c:51-70 [ref_row_uniform] and 72-91 [ref_col_uniform] *)
Definition ref_uniform (fuel : nat) (sd : bool) (u : nat) (t : option nat) (s : heap) : res heap :=
  n <~ getn s u ;
  b <~ slot n (side sd) ;
  if ptr_eqb b t then Ok s else
  s <~ match b with Some _ => unref_uniform fuel sd u s | None => Ok s end ;
  match t with
  | None => Ok s
  | Some b =>
      s <~ ref_tree fuel u (side sd) (Some b) s ;
      link sd u b s
  end.

(** Library/uniform.c:16-32 [new_uniform]; the last two lines are the accesses to [rb->k] and [cb->k] *)
Definition new_uniform (fuel : nat) (rb cb : option nat) (s : heap) : res (nat * heap) :=
  let (u, s) := alloc s KU [None; None] in
  s <~ ref_uniform fuel false u rb s ;
  s <~ ref_uniform fuel true u cb s ;
  match rb, cb with
  | Some r, Some c => getn s r ;- getn s c ;- Ok (u, s)
  | _, _ => Err ENull
  end.

(** Library/uniform.c:34-43 [del_uniform] *)
Definition del_uniform (fuel : nat) (u : nat) (s : heap) : res heap :=
  s <~ unref_uniform fuel false u s ;
  s <~ unref_uniform fuel true u s ;
  getn s u ;-
  Ok (put s u None).

(** ** H2-matrices *)
(** Library/h2matrix.c:22-44 [new_h2matrix], 74-92 [new_super_h2matrix] ([n] = rsons*csons), 60-72
    [new_full_h2matrix], 94-107 [new_zero_h2matrix] ([n] = 0) *)
Definition new_h2 (fuel : nat) (rb cb : option nat) (n : nat) (s : heap) : res (nat * heap) :=
  let (h, s) := alloc s KH (None :: None :: repeat None n) in
  s <~ ref_tree fuel h 0 rb s ;
  s <~ ref_tree fuel h 1 cb s ;
  Ok (h, s).
(** Library/h2matrix.c:46-58 [new_uniform_h2matrix] *)
Definition new_uniform_h2 (fuel : nat) (rb cb : option nat) (s : heap) : res (nat * heap) :=
  r <~ new_h2 fuel rb cb 0 s ;
  let (h, s) := r : nat * heap in
  r <~ new_uniform fuel rb cb s ;
  let (u, s) := r : nat * heap in
  s <~ update s h (fun m => with_u m (Some u)) ;
  Ok (h, s).

(** [unref_clusterbasis(h2->cb)] and similar *)
Definition unref_slot (un : nat -> heap -> res heap) (x i : nat) (s : heap) : res heap :=
  n <~ getn s x ;
  p <~ slot n i ;
  match p with Some y => un y s | None => Err ENull end.

(** Library/h2matrix.c:238-264 [del_h2matrix] *)
Definition del_h2 (un : nat -> heap -> res heap) (fuel : nat) (x : nat) (s : heap) : res heap :=
  n <~ getn s x ;
  rassert (nr n =? 0) ;-
  s <~ sonloop un x (length (nc n) - 2) 2 s ;
  n <~ getn s x ;
  s <~ match nu n with Some u => del_uniform fuel u s | None => Ok s end ;
  s <~ unref_slot (unref_tree fuel) x 1 s ;
  s <~ unref_slot (unref_tree fuel) x 0 s ;
  Ok (put s x None).
(** Library/h2matrix.c:282-291 [unref_h2matrix]; [depth] limits the recursion for H2-matrices, [fuel]
    for cluster bases *)
Fixpoint unref_h2 (depth fuel : nat) (x : nat) (s : heap) : res heap :=
  match depth with
  | 0 => Err EFuel
  | S d =>
      n <~ getn s x ;
      rassert (0 <? nr n) ;-
      s <~ Ok (put s x (Some (with_r n (nr n - 1)))) ;
      n <~ getn s x ;
      if nr n =? 0 then del_h2 (unref_h2 d fuel) fuel x s else Ok s
  end.
Definition ref_h2 (fuel : nat) := ref_with (unref_h2 fuel fuel).

(** ** Histories *)
(** The operations offered to the caller.  [OVar k]: a variable for pointers to [k].  [ORef o i t]: [t]
    is assigned to the counted pointer [i] of [o]. *)
Inductive op :=
| OVar (k : kind)
| ONewTree (k : kind) (n : nat)
| ONewUniform (rb cb : option nat)
| ONewH2 (rb cb : option nat) (n : nat)
| ONewUniformH2 (rb cb : option nat)
| ORefTree (o i : nat) (t : option nat)
| ORefH2 (o i : nat) (t : option nat)
| ORefUniform (sd : bool) (u : nat) (t : option nat)
| OUnrefUniform (sd : bool) (u : nat)
| ODelTree (x : nat)
| ODelUniform (u : nat)
| ODelH2 (x : nat).

Definition exec (fuel : nat) (o : op) (s : heap) : res heap :=
  match o with
  | OVar k => Ok (snd (alloc s k [None]))
  | ONewTree k n => Ok (snd (new_tree k n s))
  | ONewUniform rb cb => r <~ new_uniform fuel rb cb s ; Ok (snd r)
  | ONewH2 rb cb n => r <~ new_h2 fuel rb cb n s ; Ok (snd r)
  | ONewUniformH2 rb cb => r <~ new_uniform_h2 fuel rb cb s ; Ok (snd r)
  | ORefTree o i t => ref_tree fuel o i t s
  | ORefH2 o i t => ref_h2 fuel o i t s
  | ORefUniform sd u t => ref_uniform fuel sd u t s
  | OUnrefUniform sd u => unref_uniform fuel sd u s
  | ODelTree x => del_tree (unref_tree fuel) x s
  | ODelUniform u => del_uniform fuel u s
  | ODelH2 x => del_h2 (unref_h2 fuel fuel) fuel x s
  end.
Fixpoint execs (fuel : nat) (l : list op) (s : heap) : res heap :=
  match l with [] => Ok s | o :: l' => s' <~ exec fuel o s ; execs fuel l' s' end.
(** Before the first operation *)
Definition empty_heap : heap := Heap (fun _ => None) 0.
