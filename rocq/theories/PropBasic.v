(** * Properties C36, C37 and C45: sorting, allocation, memory tracing *)
From Coq Require Import Arith Lia List Bool ZArith.
From Verif Require Import Fld Prog Arr Basic SortP AllocP.
Import ListNotations.

(** ** C36: heapsort *)

(** Let the callbacks compare and exchange the [n] objects [key s 0, ..., key s (n-1)] of a state
    [s], where [le] is a total preorder.  They need not work for indices [n] and above or for two
    equal indices.  Then heapsort ends, the result is ordered, it is a permutation of the original
    objects, and objects with indices [n] and above are left alone. *)
Theorem C36_heapsort : forall (S X : Type) (leq : nat -> nat -> S -> res bool) (swap : nat -> nat -> S -> res S)
    (inv : S -> Prop) (key : S -> nat -> X) (le : X -> X -> bool) (n : nat),
  (forall x y, le x y = true \/ le y x = true) ->
  (forall x y z, le x y = true -> le y z = true -> le x z = true) ->
  (forall s i j, inv s -> i < n -> j < n -> i <> j -> leq i j s = Ok (le (key s i) (key s j))) ->
  (forall s i j, inv s -> i < n -> j < n -> i <> j -> exists s', swap i j s = Ok s' /\ inv s' /\
     key s' i = key s j /\ key s' j = key s i /\ forall k, k <> i -> k <> j -> key s' k = key s k) ->
  (N.of_nat n <= 2 ^ 31)%N ->
  forall s, inv s -> exists s', heapsort leq swap n s = Ok s' /\ inv s' /\
    (forall i j, i < j < n -> le (key s' i) (key s' j) = true) /\
    (exists p, (forall i, i < n -> p i < n) /\ (forall i j, i < n -> j < n -> p i = p j -> i = j) /\
       forall i, i < n -> key s' i = key s (p i)) /\
    (forall i, n <= i -> key s' i = key s i).
Proof.
  intros S X leq swap inv key le n Ht Htr Hl Hs Hn s Hi.
  assert (H : rok (heapsort leq swap n s) (fun s' => inv s' /\ (forall i j, i < j < n -> le (key s' i) (key s' j) = true) /\ sperm key n s s')).
  { apply heapsort_ok; auto. intros s0 i j H0 H1 H2 H3. destruct (Hs s0 i j H0 H1 H2 H3) as (s' & -> & A & B & C & D). cbn. split; [exact A|].
    intros k. destruct (Nat.eqb_spec k i) as [->|]; [exact B|]. destruct (Nat.eqb_spec k j) as [->|]; [exact C|auto]. }
  apply rok_inv in H. destruct H as (s' & E & A & B & p & P1 & P2 & P3 & P4). exists s'. split; [exact E|]. split; [exact A|]. split; [exact B|]. split; [exists p; auto|exact P4].
Qed.

(** Callbacks for an array of integers, as they occur in applications, and a run. *)
Definition xleq (i j : nat) (s : arr Z) : res bool := let* x := aget s i in let* y := aget s j in Ok (x <=? y)%Z.
Definition xswap (i j : nat) (s : arr Z) : res (arr Z) :=
  let* x := aget s i in let* y := aget s j in let* s := aset s i y in aset s j x.
Example C36_run : heapsort xleq xswap 7 (map Some [5; 3; 8; 1; 5; -2; 4]%Z) = Ok (map Some [-2; 1; 3; 4; 5; 5; 8]%Z).
Proof. reflexivity. Qed.
Lemma aget_map (s : list Z) i : i < length s -> aget (map Some s) i = Ok (nth i s 0%Z).
Proof. intros H. unfold aget. rewrite nth_error_map. rewrite (nth_error_nth' s 0%Z H). reflexivity. Qed.
Example C36_hyps : forall l : list Z, (N.of_nat (length l) <= 2 ^ 31)%N ->
  exists s', heapsort xleq xswap (length l) (map Some l) = Ok s'.
Proof.
  intros l Hl.
  destruct (C36_heapsort (arr Z) Z xleq xswap (fun s => length s = length l /\ forall i, i < length l -> exists x, nth_error s i = Some (Some x))
    (fun s i => match nth_error s i with Some (Some x) => x | _ => 0%Z end) Z.leb (length l)) with (s := map Some l) as (s' & E & _); eauto.
  - intros x y. destruct (Z.leb_spec x y); [auto|]. right. apply Z.leb_le. lia.
  - intros x y z H1 H2. apply Z.leb_le in H1, H2. apply Z.leb_le. lia.
  - intros s i j [_ Hv] Hi Hj _. unfold xleq, aget. destruct (Hv i Hi) as [x ->]. destruct (Hv j Hj) as [y ->]. reflexivity.
  - intros s i j [Hlen Hv] Hi Hj Hij. unfold xswap, aget. destruct (Hv i Hi) as [x Ex]. destruct (Hv j Hj) as [y Ey]. rewrite Ex, Ey. cbn [rbind].
    unfold aset. rewrite Hlen. destruct (Nat.ltb_spec i (length l)); [|lia]. cbn [rbind]. rewrite lupd_length, Hlen. destruct (Nat.ltb_spec j (length l)); [|lia].
    eexists. split; [reflexivity|]. split; [split; [rewrite !lupd_length; exact Hlen|]|].
    + intros k Hk. rewrite !lupd_nth, lupd_length, Hlen. destruct ((k =? j) && (k <? length l)); [eauto|]. destruct ((k =? i) && (k <? length l)); eauto.
    + rewrite !lupd_nth, !lupd_length, Hlen, !Nat.eqb_refl. destruct (Nat.ltb_spec i (length l)); [|lia]. destruct (Nat.ltb_spec j (length l)); [|lia].
      destruct (Nat.eqb_spec i j); [lia|]. cbn [andb]. split; [reflexivity|]. split; [reflexivity|].
      intros k Hki Hkj. rewrite !lupd_nth. destruct (Nat.eqb_spec k j); [lia|]. destruct (Nat.eqb_spec k i); [lia|reflexivity].
  - split; [apply map_length|]. intros i Hi. rewrite nth_error_map, (nth_error_nth' l 0%Z Hi). cbn. eauto.
Qed.

(** The indices are 32-bit integers.  For more than 2^31 objects computing the index of a child
    overflows: the very first step of building the heap for [n = 2^31 + 2] objects starts at the root
    [r = n / 2 - 1], which has the only child [c = n - 1].  It continues at index 3 although [c] has
    no children, changes objects in front of [r], and leaves the child larger than its parent. *)
Definition zleq (i j : nat) (s : nat -> Z) : res bool := Ok (s i <=? s j)%Z.
Definition zswap (i j : nat) (s : nat -> Z) : res (nat -> Z) := Ok (fun k => s (if k =? i then j else if k =? j then i else k)).
Theorem C36_large_refuted : forall n r c, N.of_nat n = (2 ^ 31 + 2)%N -> r = n / 2 - 1 -> c = n - 1 ->
  c = 2 * r + 1 /\ exists s s' : nat -> Z, heap_down zleq zswap r n s = Ok s' /\ (s' r < s' c)%Z /\ s' 3 <> s 3.
Proof.
  intros n r c Hn Hr Hc.
  assert (Hn2 : n / 2 = r + 1 /\ n = 2 * (r + 1)).
  { pose proof (Nat.div_mod n 2 ltac:(lia)). pose proof (Nat.mod_upper_bound n 2 ltac:(lia)). set (q := n / 2) in *. lia. }
  destruct Hn2 as [Hd Hn2]. assert (Ec : c = 2 * r + 1) by lia. split; [exact Ec|]. clear Hr Hc Hd.
  set (s := fun k => if k =? r then 0%Z else if k =? c then 1%Z else if k =? 3 then 5%Z else if k =? 4 then 4%Z else (-1)%Z).
  exists s. unfold heap_down. assert (F : exists f, n = S (S (S f))) by (exists (n - 3); lia). destruct F as [f Hf].
  enough (G : forall fu, fu = n -> exists s', heap_loop zleq zswap fu r (w32 (2 * r + 1)) n s = Ok s' /\ (s' r < s' c)%Z /\ s' 3 <> s 3) by (apply (G n eq_refl)).
  intros fu Hfu. rewrite Hf in Hfu. subst fu. clear Hf. rewrite (w32_small (2 * r + 1)) by lia. rewrite <- Ec.
  assert (E3 : w32 (2 * c + 1) = 3). { unfold w32. replace (N.of_nat (2 * c + 1)) with (3 + 1 * 2 ^ 32)%N by lia. rewrite N.mod_add by discriminate. reflexivity. }
  assert (C3 : c <> 3) by lia. assert (C4 : c <> 4) by lia. assert (R3 : r <> 3) by lia. assert (R4 : r <> 4) by lia. assert (RC : r <> c) by lia.
  assert (R7 : r <> 7) by lia. assert (R8 : r <> 8) by lia. assert (C7 : c <> 7) by lia. assert (C8 : c <> 8) by lia.
  assert (Sr : s r = 0%Z) by (unfold s; rewrite Nat.eqb_refl; reflexivity).
  assert (Sc : s c = 1%Z) by (unfold s; rewrite Nat.eqb_refl; destruct (Nat.eqb_spec c r); [lia|reflexivity]).
  assert (So : forall k, k <> r -> k <> c -> s k = if k =? 3 then 5%Z else if k =? 4 then 4%Z else (-1)%Z).
  { intros k H1 H2. unfold s. destruct (Nat.eqb_spec k r); [lia|]. destruct (Nat.eqb_spec k c); [lia|]. reflexivity. }
  assert (S3 : s 3 = 5%Z) by (apply So; auto). assert (S4 : s 4 = 4%Z) by (apply So; auto). assert (S7 : s 7 = (-1)%Z) by (apply So; auto). assert (S8 : s 8 = (-1)%Z) by (apply So; auto).
  clearbody s. cbn [heap_loop]. destruct (Nat.ltb_spec c n) as [_|]; [|lia]. cbn [negb].
  rewrite (w32_small (c + 1)) by lia. destruct (Nat.ltb_spec (c + 1) n); [lia|]. cbn [rbind]. unfold zleq at 1. rewrite Sr, Sc. cbn [rbind Z.leb Z.compare]. unfold zswap at 1. cbn [rbind].
  rewrite E3. cbn [heap_loop]. destruct (Nat.ltb_spec 3 n) as [_|]; [|lia]. cbn [negb].
  change (w32 (3 + 1)) with 4. destruct (Nat.ltb_spec 4 n) as [_|]; [|lia].
  set (s1 := fun k => s (if k =? r then c else if k =? c then r else k)).
  assert (T3 : s1 3 = 5%Z) by (unfold s1; destruct (Nat.eqb_spec 3 r); [lia|]; destruct (Nat.eqb_spec 3 c); [lia|exact S3]).
  assert (T4 : s1 4 = 4%Z) by (unfold s1; destruct (Nat.eqb_spec 4 r); [lia|]; destruct (Nat.eqb_spec 4 c); [lia|exact S4]).
  assert (T7 : s1 7 = (-1)%Z) by (unfold s1; destruct (Nat.eqb_spec 7 r); [lia|]; destruct (Nat.eqb_spec 7 c); [lia|exact S7]).
  assert (T8 : s1 8 = (-1)%Z) by (unfold s1; destruct (Nat.eqb_spec 8 r); [lia|]; destruct (Nat.eqb_spec 8 c); [lia|exact S8]).
  assert (Tr : s1 r = 1%Z) by (unfold s1; rewrite Nat.eqb_refl; exact Sc).
  assert (Tc : s1 c = 0%Z) by (unfold s1; rewrite Nat.eqb_refl; destruct (Nat.eqb_spec c r); [lia|exact Sr]).
  clearbody s1. unfold zleq at 1. rewrite T3, T4. cbn [rbind Z.leb Z.compare Pos.compare Pos.compare_cont]. unfold zleq at 1. rewrite Tc, T3. cbn [rbind Z.leb Z.compare]. unfold zswap at 1. cbn [rbind].
  set (s2 := fun k => s1 (if k =? c then 3 else if k =? 3 then c else k)).
  assert (U3 : s2 3 = 0%Z) by (unfold s2; rewrite Nat.eqb_refl; destruct (Nat.eqb_spec 3 c); [lia|exact Tc]).
  assert (U7 : s2 7 = (-1)%Z) by (unfold s2; destruct (Nat.eqb_spec 7 c); [lia|exact T7]).
  assert (U8 : s2 8 = (-1)%Z) by (unfold s2; destruct (Nat.eqb_spec 8 c); [lia|exact T8]).
  assert (Ur : s2 r = 1%Z) by (unfold s2; destruct (Nat.eqb_spec r c); [lia|]; destruct (Nat.eqb_spec r 3); [lia|exact Tr]).
  assert (Uc : s2 c = 5%Z) by (unfold s2; rewrite Nat.eqb_refl; exact T3).
  clearbody s2. change (w32 (2 * 3 + 1)) with 7. cbn [heap_loop]. destruct (Nat.ltb_spec 7 n) as [_|]; [|lia]. cbn [negb].
  change (w32 (7 + 1)) with 8. destruct (Nat.ltb_spec 8 n) as [_|]; [|lia]. unfold zleq. rewrite U7, U8, U3. cbn [rbind Z.leb Z.compare Pos.compare Pos.compare_cont CompOpp]. rewrite U8. cbn [rbind Z.leb Z.compare].
  exists s2. split; [reflexivity|]. rewrite Ur, Uc, U3, S3. lia.
Qed.

(** ** C37: allocation *)
Local Open Scope N_scope.

(** What a caller who needs [need] bytes can expect: the program stops, or the block is large
    enough; it only stops if the system refuses to provide the memory or [need] plus the [extra] bytes
    for tracing cannot be represented. *)
Definition safe_alloc (ok : heap -> N -> bool) (need extra : N) (h : heap) (r : res aout) : Prop :=
  match r with
  | Ok Abort => 2 ^ 64 <= need + extra \/ ok h (need + extra) = false
  | Ok (Done p h') => need <= usable h' p /\ inside h' p /\ need + extra < 2 ^ 64
  | Err _ => False
  end.

Lemma safe_tail tr ok need h : hp_wf h -> fits tr -> need + aoff tr < 2 ^ 64 -> safe_alloc ok need (aoff tr) h (alloc_tail tr ok (need + aoff tr) h).
Proof.
  intros W F H. rewrite alloc_tail_spec; [|exact W|].
  - destruct (ok h (need + aoff tr)) eqn:E; cbn.
    + unfold usable, inside, hp_find. cbn. rewrite Nat.eqb_refl. cbn. lia.
    + destruct (N.ltb_spec 0 (need + aoff tr)) as [H0|H0]; cbn; [auto|lia].
  - intros o ->. cbn in *. lia.
Qed.

(** Without TRACE_MEMORY, for all sizes. *)
Theorem C37_allocmem : forall ok sz h, hp_wf h -> sz < 2 ^ 64 -> safe_alloc ok sz 0 h (allocmem None ok sz h).
Proof.
  intros ok sz h W Hs. unfold allocmem. cbn [aoff]. rewrite w64_small by lia. apply (safe_tail None); cbn; auto. lia.
Qed.
Theorem C37_allocvec : forall ok sizeof sz h, hp_wf h -> 0 < sizeof -> sz < 2 ^ 64 ->
  safe_alloc ok (sizeof * sz) 0 h (allocvec None ok sizeof sz h).
Proof.
  intros ok s n h W Hs Hn. unfold allocvec. cbn [aoff]. rewrite N.add_0_r, N.sub_0_r.
  replace (w64 (w64 (w64 (s * n)) + 2 ^ 64)) with (w64 (s * n)) by (unfold w64; rewrite !N.mod_mod by discriminate; rewrite N.add_mod, N.mod_same, N.add_0_r, !N.mod_mod by discriminate; reflexivity).
  replace (w64 (w64 (s * n))) with (w64 (s * n)) by (unfold w64; rewrite N.mod_mod by discriminate; reflexivity).
  destruct (N.eqb_spec (w64 (s * n) / s) n) as [E|E]; cbn [negb].
  - apply vec_check in E; auto. rewrite w64_small by exact E. rewrite <- (N.add_0_r (s * n)) at 2. apply (safe_tail None); cbn; auto. lia.
  - cbn. left. destruct (N.lt_ge_cases (s * n) (2 ^ 64)) as [H|H]; [|lia]. exfalso. apply E. rewrite w64_small by exact H. rewrite N.mul_comm. apply N.div_mul. lia.
Qed.
(** All calls of [allocmatrix] in the library pass 32-bit numbers of rows and columns. *)
Theorem C37_allocmatrix : forall ok sizeof rows cols h, hp_wf h -> 0 < sizeof -> rows < 2 ^ 32 -> cols < 2 ^ 32 ->
  safe_alloc ok (sizeof * (rows * cols)) 0 h (allocmatrix None ok sizeof rows cols h).
Proof.
  intros ok s r c h W Hs Hr Hc. assert (Hrc : r * c < 2 ^ 64) by nia.
  replace (allocmatrix None ok s r c h) with (allocvec None ok s (r * c) h); [apply C37_allocvec; auto|].
  unfold allocmatrix, allocvec. cbn [aoff]. rewrite (w64_small (r * c)) by exact Hrc.
  replace (w64 (w64 (s * r) * c)) with (w64 (s * (r * c))) by (unfold w64; rewrite N.mul_mod_idemp_l by discriminate; rewrite N.mul_assoc; reflexivity). reflexivity.
Qed.
(** For arbitrary arguments of type [size_t] the test in [allocmatrix] does not help: 2^32 rows and
    2^32 columns are accepted and give a block without a single byte. *)
Theorem C37_allocmatrix_refuted : forall ok h, hp_wf h ->
  exists p h', allocmatrix None ok 8 (2 ^ 32) (2 ^ 32) h = Ok (Done p h') /\ usable h' p = 0.
Proof.
  intros ok h W. unfold allocmatrix. cbn [aoff]. replace (w64 (w64 (w64 (8 * 2 ^ 32) * 2 ^ 32) + 0)) with 0 by reflexivity.
  change (negb (w64 (0 + 2 ^ 64 - 0) / 8 =? w64 (2 ^ 32 * 2 ^ 32))) with false. rewrite alloc_tail_spec by (auto; discriminate).
  destruct (ok h 0) eqn:E; cbn.
  - do 2 eexists. split; [reflexivity|]. unfold usable, hp_find. cbn. rewrite Nat.eqb_refl. reflexivity.
  - exists None, h. auto.
Qed.

(** With TRACE_MEMORY ([o] is ALLOC_OFFSET), as long as the size and the offset can be represented. *)
Theorem C37_trace_partial : forall o ok h, hp_wf h -> 8 <= o ->
  (forall sz, sz + o < 2 ^ 64 -> safe_alloc ok sz o h (allocmem (Some o) ok sz h)) /\
  (forall sizeof sz, 0 < sizeof -> sizeof * sz + o < 2 ^ 64 -> safe_alloc ok (sizeof * sz) o h (allocvec (Some o) ok sizeof sz h)) /\
  (forall sizeof rows cols, 0 < sizeof -> sizeof * (rows * cols) + o < 2 ^ 64 ->
     safe_alloc ok (sizeof * (rows * cols)) o h (allocmatrix (Some o) ok sizeof rows cols h)).
Proof.
  intros o ok h W Ho.
  assert (V : forall s n, 0 < s -> s * n + o < 2 ^ 64 -> safe_alloc ok (s * n) o h (allocvec (Some o) ok s n h)).
  { intros s n Hs H. unfold allocvec. cbn [aoff]. rewrite (w64_small (s * n)) by lia. rewrite (w64_small (s * n + o)) by lia.
    replace (s * n + o + 2 ^ 64 - o) with (s * n + 1 * 2 ^ 64) by lia.
    replace (w64 (s * n + 1 * 2 ^ 64)) with (s * n) by (unfold w64; rewrite N.mod_add by discriminate; symmetry; apply N.mod_small; lia).
    rewrite (N.mul_comm s n), N.div_mul by lia. rewrite N.eqb_refl. cbn [negb]. apply (safe_tail (Some o)); cbn; auto. lia. }
  split; [|split; [exact V|]].
  - intros sz H. unfold allocmem. cbn [aoff]. rewrite w64_small by lia. apply (safe_tail (Some o)); cbn; auto.
  - intros s r c Hs H. assert (Hrc : r * c < 2 ^ 64) by nia. rewrite <- (w64_small (r * c)) at 1 by exact Hrc. 
    replace (allocmatrix (Some o) ok s r c h) with (allocvec (Some o) ok s (r * c) h); [rewrite w64_small by exact Hrc; apply V; auto|].
    unfold allocmatrix, allocvec. cbn [aoff]. rewrite (w64_small (r * c)) by exact Hrc.
    replace (w64 (w64 (s * r) * c)) with (w64 (s * (r * c))) by (unfold w64; rewrite N.mul_mod_idemp_l by discriminate; rewrite N.mul_assoc; reflexivity). reflexivity.
Qed.
(** Otherwise the addition of the offset wraps around after the point where the size could have been
    tested: asking for 2^62 - 1 integers passes the test, 4 bytes are allocated, and already storing
    the size writes beyond them.  The same happens in [allocmem], which contains no test.  With the
    offset 64 of the vectorised version the pointer returned lies behind the end of the block. *)
Theorem C37_trace_refuted : forall ok h, hp_wf h -> (forall sz, sz < 100 -> ok h sz = true) ->
  allocvec (Some 8) ok 4 (2 ^ 62 - 1) h = Err EBounds /\
  allocmem (Some 8) ok (2 ^ 64 - 1) h = Err EBounds /\
  exists p h', allocvec (Some 64) ok 8 (2 ^ 61 - 1) h = Ok (Done p h') /\ ~ inside h' p.
Proof.
  intros ok h W Hok.
  assert (T : forall dsz, dsz < 8 -> alloc_tail (Some 8) ok dsz h = Err EBounds).
  { intros dsz Hd. unfold alloc_tail, h2_malloc. rewrite Hok by lia. unfold put_head, hp_find. cbn. rewrite Nat.eqb_refl. cbn. destruct (N.ltb_spec dsz 8); [reflexivity|lia]. }
  split; [|split].
  - unfold allocvec. cbn [aoff]. replace (w64 (w64 (4 * (2 ^ 62 - 1)) + 8)) with 4 by reflexivity. change (negb (w64 (4 + 2 ^ 64 - 8) / 4 =? 2 ^ 62 - 1)) with false. apply T. lia.
  - unfold allocmem. cbn [aoff]. change (w64 (2 ^ 64 - 1 + 8)) with 7. apply T. lia.
  - unfold allocvec. cbn [aoff]. replace (w64 (w64 (8 * (2 ^ 61 - 1)) + 64)) with 56 by reflexivity. change (negb (w64 (56 + 2 ^ 64 - 64) / 8 =? 2 ^ 61 - 1)) with false.
    destruct W as [W1 W2]. unfold alloc_tail, h2_malloc. rewrite Hok by lia. unfold put_head, hp_find. cbn. rewrite Nat.eqb_refl. cbn.
    do 2 eexists. split; [reflexivity|]. unfold inside, hp_find. cbn. rewrite Nat.eqb_refl. cbn. lia.
Qed.

Example C37_hyps : hp_wf (Heap [HB 0 24 None] 1 0) /\
  (exists h', allocvec None (fun _ _ => true) 8 3 (Heap [HB 0 24 None] 1 0) = Ok (Done (Some (1%nat, 0)) h') /\ usable h' (Some (1%nat, 0)) = 24) /\
  allocvec None (fun _ _ => true) 8 (2 ^ 62) (Heap [HB 0 24 None] 1 0) = Ok Abort /\
  allocmatrix None (fun _ _ => true) 8 (2 ^ 31) (2 ^ 31) (Heap [HB 0 24 None] 1 0) = Ok Abort.
Proof.
  split; [split; [repeat constructor; cbn; lia|intros b [<-|[]]; cbn; lia]|]. split; [eexists; split; reflexivity|]. split; reflexivity.
Qed.

(** ** C45: memory tracing *)

(** All states the program can reach by successful calls of the allocation functions and by freeing
    pointers to blocks that are still allocated. *)
Inductive traced (o : N) (ok : heap -> N -> bool) : heap -> Prop :=
| tr_start : traced o ok (Heap [] 0 0)
| tr_mem h sz p h' : traced o ok h -> allocmem (Some o) ok sz h = Ok (Done p h') -> traced o ok h'
| tr_vec h s n p h' : traced o ok h -> allocvec (Some o) ok s n h = Ok (Done p h') -> traced o ok h'
| tr_mat h s r c p h' : traced o ok h -> allocmatrix (Some o) ok s r c h = Ok (Done p h') -> traced o ok h'
| tr_free h b h' : traced o ok h -> In b (hp_blocks h) -> freemem (Some o) (Some (hb_id b, o)) h = Ok h' -> traced o ok h'.

(** [get_current_memory] is always the number of bytes in allocated blocks, hence zero if all blocks
    have been freed; freeing a block never fails, it removes the block and nothing else and reduces
    [get_current_memory] by the size of the block.  The system never provides 2^64 bytes. *)
Theorem C45_trace : forall o ok, (forall h sz, ok h sz = true -> total h + sz < 2 ^ 64) ->
  forall h, traced o ok h ->
  hp_cur h = total h /\
  forall b, In b (hp_blocks h) -> exists h', freemem (Some o) (Some (hb_id b, o)) h = Ok h' /\
    hp_cur h' + hb_bytes b = hp_cur h /\ forall c, In c (hp_blocks h') <-> In c (hp_blocks h) /\ c <> b.
Proof.
  intros o ok Hok h T. assert (I : tinv h).
  { induction T as [|h sz p h' T IH E|h s n p h' T IH E|h s r c p h' T IH E|h b h' T IH Hb E].
    - repeat split; cbn; try constructor; try contradiction; lia.
    - eapply tinv_alloc; [exact IH| |exact E]. apply Hok.
    - unfold allocvec in E. destruct (negb _); [discriminate|]. eapply tinv_alloc; [exact IH| |exact E]. apply Hok.
    - unfold allocmatrix in E. destruct (negb _); [discriminate|]. eapply tinv_alloc; [exact IH| |exact E]. apply Hok.
    - destruct (tinv_free o h b IH Hb) as (h2 & E2 & I & _). congruence. }
  split; [apply I|]. intros b Hb. destruct (tinv_free o h b I Hb) as (h2 & E2 & I2 & E & F). exists h2. split; [exact E2|].
  destruct I as ((W1 & W2) & H1 & H2 & H3). split.
  - rewrite E. assert (hb_bytes b <= hp_cur h); [|lia]. rewrite H2. unfold total. rewrite (total_filter _ W1 b Hb). lia.
  - intros c. rewrite F. split; intros [A B]; (split; [exact A|]); [congruence|]. intros Eid. apply B.
    pose proof (find_in _ _ W1 c A eq_refl) as F1. pose proof (find_in _ _ W1 b Hb (eq_sym Eid)) as F2. congruence.
Qed.
(** The heap after two allocations and one [freemem] is such a state. *)
Example C45_hyps : let ok := fun h sz => total h + sz <? 2 ^ 64 in
  (forall h sz, ok h sz = true -> total h + sz < 2 ^ 64) /\ traced 8 ok (Heap [HB 1 48 (Some 48)] 2 48).
Proof.
  cbv zeta. split; [intros h sz; apply N.ltb_lt|].
  eapply (tr_free _ _ (Heap [HB 1 48 (Some 48); HB 0 20 (Some 20)] 2 68) (HB 0 20 (Some 20))); [|cbn; auto|reflexivity].
  eapply (tr_vec _ _ (Heap [HB 0 20 (Some 20)] 1 20) 8 5); [|reflexivity]. eapply (tr_mem _ _ (Heap [] 0 0) 12); [constructor|reflexivity].
Qed.

Print Assumptions C36_heapsort.
Print Assumptions C36_large_refuted.
Print Assumptions C37_allocmem.
Print Assumptions C37_allocvec.
Print Assumptions C37_allocmatrix.
Print Assumptions C37_allocmatrix_refuted.
Print Assumptions C37_trace_partial.
Print Assumptions C37_trace_refuted.
Print Assumptions C45_trace.
