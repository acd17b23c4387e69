(** * Proofs about memory allocation *)
From Coq Require Import Arith Lia List Bool ZArith.
From Verif Require Import Fld Prog Arr Basic.
Import ListNotations.
Local Open Scope N_scope.

Definition M64 := 2 ^ 64.
Lemma M64_pos : M64 <> 0. Proof. discriminate. Qed.

(** The number of bytes that can be used behind the pointer. *)
Definition usable (h : heap) (p : hptr) : N :=
  match p with
  | None => 0
  | Some (id, o) => match hp_find h id with Some b => hb_bytes b - o | None => 0 end
  end.
(** The pointer belongs to an allocated block and does not point behind its end. *)
Definition inside (h : heap) (p : hptr) : Prop :=
  match p with
  | None => True
  | Some (id, o) => match hp_find h id with Some b => o <= hb_bytes b | None => False end
  end.

Lemma w64_small x : x < 2 ^ 64 -> w64 x = x. Proof. apply N.mod_small. Qed.
Lemma w64_lt x : w64 x < 2 ^ 64. Proof. apply N.mod_upper_bound. discriminate. Qed.

Definition fits (tr : option N) : Prop := match tr with Some o => 8 <= o | None => True end.

(** No block id is used twice, and [hp_next] is new. *)
Definition hp_wf (h : heap) : Prop := NoDup (map hb_id (hp_blocks h)) /\ forall b, In b (hp_blocks h) -> (hb_id b < hp_next h)%nat.

Lemma hp_find_new h b : hp_wf h -> hb_id b = hp_next h -> hp_find (Heap (b :: hp_blocks h) (S (hp_next h)) (hp_cur h)) (hp_next h) = Some b.
Proof. intros _ E. unfold hp_find. cbn. rewrite E, Nat.eqb_refl. reflexivity. Qed.

Lemma hp_map_id l id sz : map hb_id (map (fun b => if (hb_id b =? id)%nat then HB id (hb_bytes b) (Some sz) else b) l) = map hb_id l.
Proof. rewrite map_map. apply map_ext. intros b. destruct (Nat.eqb_spec (hb_id b) id); cbn; congruence. Qed.
Lemma hp_map_other l id sz : ~ In id (map hb_id l) -> map (fun b => if (hb_id b =? id)%nat then HB id (hb_bytes b) (Some sz) else b) l = l.
Proof.
  induction l as [|b l IH]; intros H; [reflexivity|]. cbn in *. destruct (Nat.eqb_spec (hb_id b) id); [exfalso; apply H; auto|]. f_equal. apply IH. auto.
Qed.

(** What all allocation functions do after computing the size. *)
Lemma alloc_tail_spec tr ok dsz h : hp_wf h -> (forall o, tr = Some o -> 8 <= o <= dsz) ->
  alloc_tail tr ok dsz h =
    if ok h dsz then Ok (Done (Some (hp_next h, aoff tr))
      (Heap (HB (hp_next h) dsz (match tr with Some _ => Some dsz | None => None end) :: hp_blocks h) (S (hp_next h))
        (match tr with Some _ => w64 (hp_cur h + dsz) | None => hp_cur h end)))
    else if 0 <? dsz then Ok Abort else Ok (Done None h).
Proof.
  intros [W1 W2] Ht. unfold alloc_tail, h2_malloc. destruct (ok h dsz).
  - destruct tr as [o|]; cbn; [|reflexivity]. destruct (Ht o eq_refl) as [H1 H2].
    unfold put_head, hp_find. cbn. rewrite Nat.eqb_refl. cbn. destruct (N.ltb_spec dsz 8); [lia|]. cbn.
    rewrite hp_map_other; [reflexivity|]. intros Hin. apply in_map_iff in Hin. destruct Hin as (b & E & Hb). apply W2 in Hb. lia.
  - destruct (N.ltb_spec 0 dsz) as [H|H]; [reflexivity|]. destruct tr as [o|]; [|reflexivity]. destruct (Ht o eq_refl). lia.
Qed.

Lemma find_new dsz x h : hp_find (Heap (HB (hp_next h) dsz x :: hp_blocks h) (S (hp_next h)) (hp_cur h)) (hp_next h) = Some (HB (hp_next h) dsz x).
Proof. unfold hp_find. cbn. rewrite Nat.eqb_refl. reflexivity. Qed.

(** The overflow test of the vector functions without tracing. *)
Lemma vec_check s n : 0 < s -> n < 2 ^ 64 -> w64 (s * n) / s = n -> s * n < 2 ^ 64.
Proof.
  intros Hs Hn E. unfold w64 in E. pose proof (N.mul_div_le ((s * n) mod 2 ^ 64) s ltac:(lia)) as H. rewrite E in H.
  pose proof (N.mod_upper_bound (s * n) (2 ^ 64) ltac:(discriminate)). lia.
Qed.

Lemma alloc_tail_inv o ok dsz h p h' : hp_wf h -> alloc_tail (Some o) ok dsz h = Ok (Done p h') ->
  p = Some (hp_next h, o) /\ ok h dsz = true /\ h' = Heap (HB (hp_next h) dsz (Some dsz) :: hp_blocks h) (S (hp_next h)) (w64 (hp_cur h + dsz)).
Proof.
  intros [W1 W2]. unfold alloc_tail, h2_malloc. destruct (ok h dsz); [|destruct (0 <? dsz); discriminate]. cbn.
  unfold put_head, hp_find. cbn. rewrite Nat.eqb_refl. cbn. destruct (dsz <? 8); [discriminate|]. cbn.
  rewrite hp_map_other; [|intros Hin; apply in_map_iff in Hin; destruct Hin as (b & E & Hb); apply W2 in Hb; lia]. intros [= <- <-]. auto.
Qed.

(** ** Tracing *)
Definition total (h : heap) : N := fold_right (fun b n => hb_bytes b + n) 0 (hp_blocks h).
Definition tinv (h : heap) : Prop :=
  hp_wf h /\ (forall b, In b (hp_blocks h) -> hb_head b = Some (hb_bytes b)) /\ hp_cur h = total h /\ total h < 2 ^ 64.

Lemma tinv_alloc o ok dsz h p h' : tinv h -> (ok h dsz = true -> total h + dsz < 2 ^ 64) -> alloc_tail (Some o) ok dsz h = Ok (Done p h') -> tinv h'.
Proof.
  intros (W & H1 & H2 & H3) Hs E. apply alloc_tail_inv in E; [|exact W]. destruct E as (_ & Hok & ->). specialize (Hs Hok). destruct W as [W1 W2].
  split; [split|split; [|split]]; cbn.
  - constructor; [|exact W1]. intros Hin. apply in_map_iff in Hin. destruct Hin as (b & E & Hb). apply W2 in Hb. lia.
  - intros b [<-|Hb]; cbn; [lia|]. apply W2 in Hb. lia.
  - intros b [<-|Hb]; [reflexivity|auto].
  - unfold total. cbn. fold (total h). rewrite H2, w64_small by exact Hs. lia.
  - unfold total. cbn. fold (total h). lia.
Qed.

Lemma find_in l id : NoDup (map hb_id l) -> forall b, In b l -> hb_id b = id -> find (fun b => (hb_id b =? id)%nat) l = Some b.
Proof.
  induction l as [|a l IH]; intros Hn b Hb E; [destruct Hb|]. cbn. inversion Hn as [|? ? Hn1 Hn2]; subst. destruct Hb as [->|Hb].
  - rewrite Nat.eqb_refl. reflexivity.
  - destruct (Nat.eqb_spec (hb_id a) (hb_id b)) as [E|E]; [exfalso; apply Hn1; rewrite E; apply in_map, Hb|]. apply IH; auto.
Qed.
Lemma filter_id l id : ~ In id (map hb_id l) -> filter (fun b => negb (hb_id b =? id)%nat) l = l.
Proof.
  induction l as [|a l IH]; intros H; [reflexivity|]. cbn in *. destruct (Nat.eqb_spec (hb_id a) id); [exfalso; apply H; auto|]. cbn. f_equal. apply IH. auto.
Qed.
Lemma total_filter l : NoDup (map hb_id l) -> forall b, In b l ->
  fold_right (fun b n => hb_bytes b + n) 0 l = hb_bytes b + fold_right (fun b n => hb_bytes b + n) 0 (filter (fun c => negb (hb_id c =? hb_id b)%nat) l).
Proof.
  induction l as [|a l IH]; intros Hn b Hb; [destruct Hb|]. inversion Hn as [|? ? Hn1 Hn2]; subst. destruct Hb as [->|Hb]; cbn [filter].
  - rewrite Nat.eqb_refl. cbn [negb]. rewrite filter_id by exact Hn1. reflexivity.
  - destruct (Nat.eqb_spec (hb_id a) (hb_id b)) as [E|E]; [exfalso; apply Hn1; rewrite E; apply in_map, Hb|]. cbn [negb fold_right]. rewrite (IH Hn2 b Hb). lia.
Qed.
Lemma NoDup_filter_map l (f : hblock -> bool) : NoDup (map hb_id l) -> NoDup (map hb_id (filter f l)).
Proof.
  induction l as [|a l IH]; intros H; [constructor|]. inversion H as [|? ? H1 H2]; subst. cbn. destruct (f a); [|auto]. cbn. constructor; [|auto].
  intros Hin. apply H1. apply in_map_iff in Hin. destruct Hin as (b & E & Hb). apply filter_In in Hb. rewrite <- E. apply in_map, Hb.
Qed.

Lemma tinv_free o h b : tinv h -> In b (hp_blocks h) ->
  exists h', freemem (Some o) (Some (hb_id b, o)) h = Ok h' /\ tinv h' /\ hp_cur h' = hp_cur h - hb_bytes b /\
    forall c, In c (hp_blocks h') <-> In c (hp_blocks h) /\ hb_id c <> hb_id b.
Proof.
  intros ((W1 & W2) & H1 & H2 & H3) Hb. unfold freemem, h2_free, hp_find. rewrite N.eqb_refl. cbn [negb].
  rewrite (find_in _ _ W1 b Hb eq_refl), (H1 _ Hb). cbn [rbind hp_cur rassert].
  assert (T : total h = hb_bytes b + fold_right (fun b n => hb_bytes b + n) 0 (filter (fun c => negb (hb_id c =? hb_id b)%nat) (hp_blocks h))) by (apply total_filter; auto).
  destruct (N.leb_spec (hb_bytes b) (hp_cur h)) as [Hl|Hl]; [|lia]. cbn [rbind]. eexists. split; [reflexivity|]. cbn [hp_cur hp_blocks hp_next].
  assert (Ew : w64 (hp_cur h + 2 ^ 64 - hb_bytes b) = hp_cur h - hb_bytes b).
  { replace (hp_cur h + 2 ^ 64 - hb_bytes b) with (hp_cur h - hb_bytes b + 1 * 2 ^ 64) by lia. unfold w64. rewrite N.mod_add by discriminate. apply N.mod_small. lia. }
  split; [|split].
  - split; [split|split; [|split]]; cbn [hp_blocks hp_next hp_cur].
    + apply NoDup_filter_map, W1.
    + intros c Hc. apply filter_In in Hc. apply W2, Hc.
    + intros c Hc. apply filter_In in Hc. apply H1, Hc.
    + rewrite Ew. unfold total. cbn [hp_blocks]. unfold total in T, H2. lia.
    + unfold total. cbn [hp_blocks]. lia.
  - exact Ew.
  - intros c. rewrite filter_In. destruct (Nat.eqb_spec (hb_id c) (hb_id b)); cbn; intuition congruence.
Qed.
