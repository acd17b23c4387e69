(** * Proofs about the construction of block trees *)
From Coq Require Import Arith Lia List Bool Permutation.
From Verif Require Import Fld Ord Prog Arr Loop Cluster ClusterSpec ClusterP ClusterP4 ClusterP5 Block BlockSpec.
Import ListNotations.

(** ** Lists *)
Lemma rfor_list {A S} (l : list A) : forall lo (body : nat -> S -> res S) (f : A -> S -> res S) s,
  (forall k x, nth_error l k = Some x -> forall s, body (lo + k) s = f x s) ->
  rfor lo (length l) body s = rfold f l s.
Proof.
  induction l as [|x l IH]; intros lo body f s H; cbn; [reflexivity|].
  pose proof (H 0 x eq_refl s) as H0. rewrite Nat.add_0_r in H0. rewrite H0. destruct (f x s); cbn; [|reflexivity].
  apply IH. intros k y Hk s1. rewrite <- (H (Datatypes.S k) y Hk). f_equal. lia.
Qed.

Lemma nth_error_ext {A} (l l' : list A) : (forall i, nth_error l i = nth_error l' i) -> l = l'.
Proof.
  revert l'. induction l as [|x l IH]; intros [|y l'] H; [reflexivity|discriminate (H 0)|discriminate (H 0)|].
  pose proof (H 0) as E. cbn in E. injection E as ->. f_equal. apply IH. intros i. exact (H (S i)).
Qed.

Definition gridl {A} (r c : nat) (g : nat -> nat -> A) : list A :=
  concat (map (fun j => map (fun i => g i j) (seq 0 r)) (seq 0 c)).

Lemma nth_concat {A} (cols : list (list A)) r : forall j i col, Forall (fun l => length l = r) cols ->
  nth_error cols j = Some col -> i < r -> nth_error (concat cols) (i + j * r) = nth_error col i.
Proof.
  induction cols as [|c0 cols IH]; intros j i col F H Hi; [destruct j; discriminate|].
  inversion F as [|? ? F0 F1]; subst. destruct j as [|j]; cbn in *.
  - injection H as ->. rewrite Nat.add_0_r. apply nth_error_app1. lia.
  - rewrite nth_error_app2 by lia. replace (i + (length c0 + j * length c0) - length c0) with (i + j * length c0) by lia.
    apply IH; assumption.
Qed.

Lemma concat_length {A} (cols : list (list A)) r : Forall (fun l => length l = r) cols ->
  length (concat cols) = length cols * r.
Proof. induction 1 as [|x l Hx Hl IH]; cbn; [reflexivity|]. rewrite app_length. lia. Qed.

Lemma nth_seq_map {A} (f : nat -> A) n i : i < n -> nth_error (map f (seq 0 n)) i = Some (f i).
Proof.
  intros H. rewrite nth_error_map, (nth_error_nth' _ 0) by (rewrite seq_length; exact H).
  rewrite seq_nth by exact H. reflexivity.
Qed.

Lemma gridl_cols {A} r c (g : nat -> nat -> A) :
  Forall (fun l => length l = r) (map (fun j => map (fun i => g i j) (seq 0 r)) (seq 0 c)).
Proof. apply Forall_forall. intros l H. apply in_map_iff in H as (j & <- & _). rewrite map_length, seq_length. reflexivity. Qed.

Lemma gridl_nth {A} r c (g : nat -> nat -> A) i j : i < r -> j < c -> nth_error (gridl r c g) (i + j * r) = Some (g i j).
Proof.
  intros Hi Hj. unfold gridl. rewrite (nth_concat _ r j i (map (fun i => g i j) (seq 0 r)) (gridl_cols r c g)).
  - apply (nth_seq_map (fun i => g i j)). exact Hi.
  - apply (nth_seq_map (fun j => map (fun i => g i j) (seq 0 r))). exact Hj.
  - exact Hi.
Qed.

Lemma gridl_length {A} r c (g : nat -> nat -> A) : length (gridl r c g) = r * c.
Proof. unfold gridl. rewrite (concat_length _ r (gridl_cols r c g)), map_length, seq_length. lia. Qed.

Lemma flat_index k r c : k < r * c -> exists i j, i < r /\ j < c /\ k = i + j * r.
Proof.
  intros H. assert (r <> 0) by (intros ->; cbn in H; lia).
  exists (k mod r), (k / r). split; [apply Nat.mod_upper_bound; assumption|]. split.
  - apply Nat.div_lt_upper_bound; assumption.
  - rewrite (Nat.div_mod k r) at 1 by assumption. lia.
Qed.

Lemma flat_lt i j r c : i < r -> j < c -> i + j * r < r * c.
Proof. intros. assert (S j * r <= c * r) by (apply Nat.mul_le_mono_r; lia). lia. Qed.

Lemma flat_inj i j i' j' r : i < r -> i' < r -> i + j * r = i' + j' * r -> i = i' /\ j = j'.
Proof.
  intros Hi Hi' E. assert (j = j') as ->; [|lia].
  destruct (Nat.lt_trichotomy j j') as [H|[H|H]]; [|exact H|].
  - assert (S j * r <= j' * r) by (apply Nat.mul_le_mono_r; lia). lia.
  - assert (S j' * r <= j * r) by (apply Nat.mul_le_mono_r; lia). lia.
Qed.

Lemma gridl_unique {A} (l : list (option A)) r c (g : nat -> nat -> A) : length l = r * c ->
  (forall i j, i < r -> j < c -> nth_error l (i + j * r) = Some (Some (g i j))) -> l = map Some (gridl r c g).
Proof.
  intros L H. apply nth_error_ext. intros k. destruct (Nat.lt_ge_cases k (r * c)) as [Hk|Hk].
  - destruct (flat_index _ _ _ Hk) as (i & j & Hi & Hj & ->). rewrite H by assumption.
    rewrite nth_error_map, gridl_nth by assumption. reflexivity.
  - rewrite (proj2 (nth_error_None _ _)) by lia. symmetry. apply nth_error_None. rewrite map_length, gridl_length. exact Hk.
Qed.

Lemma Forall2_seq {A B} (P : A -> B -> Prop) (l : list A) (f : nat -> B) : forall lo,
  (forall i x, nth_error l i = Some x -> P x (f (lo + i))) -> Forall2 P l (map f (seq lo (length l))).
Proof.
  induction l as [|x l IH]; intros lo H; cbn; constructor.
  - rewrite <- (Nat.add_0_r lo). apply H. reflexivity.
  - apply IH. intros i y Hi. replace (S lo + i) with (lo + S i) by lia. apply H. exact Hi.
Qed.

Lemma Forall2_nth {A B} (P : A -> B -> Prop) l l' : Forall2 P l l' -> forall i x y,
  nth_error l i = Some x -> nth_error l' i = Some y -> P x y.
Proof.
  induction 1 as [|a b l l' H F IH]; intros i x y Hx Hy; destruct i; cbn in *; try discriminate.
  - congruence.
  - eauto.
Qed.

Lemma Forall2_len {A B} (P : A -> B -> Prop) l l' : Forall2 P l l' -> length l = length l'.
Proof. induction 1; cbn; congruence. Qed.

Section Blocks.
Context {K : ofops}.
Implicit Types (b s : block K) (t : cluster K) (p rc cc : cptr K).

Lemma block_rect' (P : block K -> Prop) :
  (forall rc cc a rs cs son ds, (forall s, In (Some s) son -> P s) -> P (Blk rc cc a rs cs son ds)) -> forall b, P b.
Proof.
  intros H. fix IH 1. intros [rc cc a rs cs son ds]. apply H.
  induction son as [|[s0|] son IHs]; intros s E.
  - destruct E.
  - destruct E as [E|E]; [injection E as <-; apply IH|apply IHs; exact E].
  - destruct E as [E|E]; [discriminate|apply IHs; exact E].
Qed.

Definition ol {A B} (f : A -> list B) (o : option A) : list B := match o with Some s => f s | None => [] end.

Lemma bnodes_eq b : bnodes b = b :: flat_map (ol bnodes) (b_son b).
Proof. destruct b; reflexivity. Qed.

Lemma flat_some {A B} (f : A -> list B) l : flat_map (ol f) (map Some l) = flat_map f l.
Proof. induction l as [|x l IH]; cbn; [reflexivity|]. rewrite IH. reflexivity. Qed.

Lemma in_bnodes b s : In s (bnodes b) <-> s = b \/ exists x, In (Some x) (b_son b) /\ In s (bnodes x).
Proof.
  rewrite bnodes_eq. cbn. rewrite in_flat_map. split; (intros [H|H]; [left; congruence|right]).
  - destruct H as ([x|] & H1 & H2); [eauto|destruct H2].
  - destruct H as (x & H1 & H2). exists (Some x). auto.
Qed.

Lemma bnodes_refl b : In b (bnodes b).
Proof. apply in_bnodes. left. reflexivity. Qed.

Lemma bnodes_trans a b c : In b (bnodes a) -> In c (bnodes b) -> In c (bnodes a).
Proof.
  revert b. induction a as [rc cc ad rs cs son ds IH] using block_rect'. intros b Hb Hc.
  apply in_bnodes in Hb as [->|(x & Hx & Hb)]; [exact Hc|]. apply in_bnodes. right. exists x. split; [exact Hx|].
  eapply IH; eassumption.
Qed.

Lemma bleaves_eq b : bleaves b = match b_son b with [] => [b] | l => flat_map (ol bleaves) l end.
Proof. destruct b as [? ? ? ? ? [|] ?]; reflexivity. Qed.

Lemma bleaves_in b s : In s (bleaves b) -> In s (bnodes b) /\ b_son s = [].
Proof.
  induction b as [rc cc a rs cs son ds IH] using block_rect'. rewrite bleaves_eq, in_bnodes. cbn [b_son].
  destruct son as [|o son].
  - intros [<-|[]]. auto.
  - rewrite in_flat_map. intros ([x|] & Hx & Hs); [|destruct Hs]. destruct (IH x Hx Hs). eauto.
Qed.

(** ** Cluster references *)
Lemma cp_son_nth p i (s : cluster K) : nth_error (c_sons (cp_c p)) i = Some s -> cp_son p i = Ok (CP (i :: cp_path p) s).
Proof. unfold cp_son. intros ->. reflexivity. Qed.

Lemma cp_split_nth p i : nth_error (cp_split p) i =
  match nth_error (c_sons (cp_c p)) i with Some s => Some (CP (i :: cp_path p) s) | None => None end.
Proof.
  unfold cp_split, cp_sons. rewrite nth_error_map. set (l := c_sons (cp_c p)). clearbody l.
  assert (G : forall lo i, nth_error (combine (seq lo (length l)) l) i =
    match nth_error l i with Some s => Some (lo + i, s) | None => None end).
  { clear i. induction l as [|x l IH]; intros lo [|i]; cbn; try reflexivity.
    - rewrite Nat.add_0_r. reflexivity.
    - rewrite IH. destruct (nth_error l i); [|reflexivity]. do 2 f_equal. lia. }
  rewrite G. destruct (nth_error l i); reflexivity.
Qed.

Lemma cp_split_length p : length (cp_split p) = cp_sons p.
Proof. unfold cp_split, cp_sons. rewrite map_length, combine_length, seq_length. lia. Qed.

Lemma cp_son_split p i : i < cp_sons p -> exists q, cp_son p i = Ok q /\ nth_error (cp_split p) i = Some q.
Proof.
  intros H. unfold cp_sons in H. destruct (nth_error (c_sons (cp_c p)) i) as [s|] eqn:E.
  - exists (CP (i :: cp_path p) s). rewrite (cp_son_nth _ _ _ E), cp_split_nth, E. auto.
  - apply nth_error_None in E. lia.
Qed.

Lemma cp_split_map p : map (@cp_c K) (cp_split p) = c_sons (cp_c p).
Proof.
  apply nth_error_ext. intros i. rewrite nth_error_map, cp_split_nth. destruct (nth_error _ i); reflexivity.
Qed.

Lemma cp_eqb_refl p : cp_eqb p p = true.
Proof. unfold cp_eqb. destruct list_eq_dec; congruence. Qed.
Lemma cp_eqb_split p q i : nth_error (cp_split p) i = Some q -> cp_eqb q p = false.
Proof.
  rewrite cp_split_nth. destruct (nth_error _ i); [|discriminate]. intros E. injection E as <-.
  unfold cp_eqb. cbn [cp_path]. destruct list_eq_dec as [E|]; [|reflexivity]. exfalso.
  apply (f_equal (@length nat)) in E. cbn in E. lia.
Qed.
Lemma cp_eqb_eq p q : cp_eqb p q = true <-> cp_path p = cp_path q.
Proof. unfold cp_eqb. destruct list_eq_dec; split; congruence. Qed.

Lemma split_in p q : In q (cp_split p) -> In (cp_c q) (c_sons (cp_c p)).
Proof. intros H. rewrite <- cp_split_map. apply in_map. exact H. Qed.

(** ** Filling in the sons *)
Definition fresh rc cc a r c : block K := Blk rc cc a r c (repeat None (r * c)) None.

(** One row or column or an arbitrary set of sons. *)
Definition filled (D : nat -> nat -> Prop) (g : nat -> nat -> block K) rc cc a r c b : Prop :=
  exists son, b = Blk rc cc a r c son None /\ length son = r * c /\
    forall i j, i < r -> j < c -> D i j -> nth_error son (i + j * r) = Some (Some (g i j)).

Lemma filled_new rc cc a r c D g : (forall i j, ~ D i j) -> filled D g rc cc a r c (new_block rc cc a r c).
Proof. intros H. exists (repeat None (r * c)). split; [reflexivity|]. split; [apply repeat_length|]. intros i j _ _ Hd. destruct (H _ _ Hd). Qed.

Lemma filled_weak (D D' : nat -> nat -> Prop) g rc cc a r c b : filled D g rc cc a r c b ->
  (forall i j, i < r -> j < c -> D' i j -> D i j) -> filled D' g rc cc a r c b.
Proof. intros (son & E & L & H) HD. exists son. split; [exact E|]. split; [exact L|]. auto. Qed.

Lemma filled_set (D : nat -> nat -> Prop) g rc cc a r c b i j : i < r -> j < c ->
  filled D g rc cc a r c b ->
  rok (set_son b (i + j * r) (g i j)) (filled (fun i' j' => (i' = i /\ j' = j) \/ D i' j') g rc cc a r c).
Proof.
  intros Hi Hj (son & -> & L & H). cbn [set_son]. rewrite L.
  destruct (Nat.ltb_spec (i + j * r) (r * c)) as [_|X]; [|pose proof (flat_lt i j r c Hi Hj); lia].
  cbn. exists (lupd son (i + j * r) (Some (g i j))). split; [reflexivity|]. split; [rewrite lupd_length; exact L|].
  intros i' j' Hi' Hj' Hd. rewrite lupd_nth, L.
  destruct (Nat.eqb_spec (i' + j' * r) (i + j * r)) as [E|N].
  - apply flat_inj in E as [-> ->]; try assumption.
    destruct (Nat.ltb_spec (i + j * r) (r * c)) as [_|X]; [|pose proof (flat_lt i j r c Hi Hj); lia]. reflexivity.
  - cbn. apply H; try assumption. destruct Hd as [[-> ->]|Hd]; [lia|exact Hd].
Qed.

Lemma filled_all g rc cc a r c b : filled (fun _ _ => True) g rc cc a r c b ->
  b = Blk rc cc a r c (map Some (gridl r c g)) None.
Proof.
  intros (son & -> & L & H). f_equal. apply gridl_unique; [exact L|]. intros. apply H; auto.
Qed.

(** The loop nest [for i, for j]. *)
Lemma fill_grid g rc cc a r c (f : nat -> nat -> res (block K)) :
  (forall i j, i < r -> j < c -> f i j = Ok (g i j)) ->
  rfor 0 r (fun i b => rfor 0 c (fun j b => let* s := f i j in set_son b (i + j * r) s) b) (new_block rc cc a r c) =
  Ok (Blk rc cc a r c (map Some (gridl r c g)) None).
Proof.
  intros Hf. assert (G : rok (rfor 0 r (fun i b => rfor 0 c (fun j b => let* s := f i j in set_son b (i + j * r) s) b) (new_block rc cc a r c))
    (filled (fun _ _ => True) g rc cc a r c)).
  { apply (rok_for (fun k => filled (fun i _ => i < k) g rc cc a r c)).
    - apply filled_new. intros; lia.
    - intros i b Hi Hb. apply (rok_for (fun k => filled (fun i' j' => i' < i \/ (i' = i /\ j' < k)) g rc cc a r c)).
      + eapply filled_weak; [exact Hb|]. cbn; intros; lia.
      + intros j b1 Hj Hb1. rewrite Hf by lia. cbn [rbind]. eapply rok_conseq; [eapply (filled_set _ g rc cc a r c b1 i j); [lia|lia|exact Hb1]|].
        intros b2 H2. eapply filled_weak; [exact H2|]. cbn; intros; lia.
      + intros b1 Hb1. eapply filled_weak; [exact Hb1|]. cbn; intros; lia.
    - intros b Hb. eapply filled_weak; [exact Hb|]. cbn; intros; lia. }
  apply rok_inv in G as (b & E & H). rewrite E. f_equal. apply filled_all. exact H.
Qed.

Lemma fill_row g rc cc a c (f : nat -> res (block K)) :
  (forall j, j < c -> f j = Ok (g 0 j)) ->
  rfor 0 c (fun j b => let* s := f j in set_son b j s) (new_block rc cc a 1 c) =
  Ok (Blk rc cc a 1 c (map Some (gridl 1 c g)) None).
Proof.
  intros Hf. rewrite <- (fill_grid g rc cc a 1 c (fun _ j => f j)).
  - cbn [rfor]. destruct (rfor 0 c _ _) as [b|e] eqn:E.
    + symmetry. rewrite (rfor_ext 0 c _ (fun j b => let* s := f j in set_son b j s)).
      * rewrite E. reflexivity.
      * intros j s _. rewrite Nat.mul_1_r. reflexivity.
    + symmetry. rewrite (rfor_ext 0 c _ (fun j b => let* s := f j in set_son b j s)).
      * rewrite E. reflexivity.
      * intros j s _. rewrite Nat.mul_1_r. reflexivity.
  - intros i j Hi Hj. replace i with 0 by lia. auto.
Qed.

Lemma fill_col g rc cc a r (f : nat -> res (block K)) :
  (forall i, i < r -> f i = Ok (g i 0)) ->
  rfor 0 r (fun i b => let* s := f i in set_son b i s) (new_block rc cc a r 1) =
  Ok (Blk rc cc a r 1 (map Some (gridl r 1 g)) None).
Proof.
  intros Hf. rewrite <- (fill_grid g rc cc a r 1 (fun i _ => f i)).
  - apply rfor_ext. intros i s Hi. cbn [rfor]. rewrite Nat.mul_0_l, Nat.add_0_r. destruct (f i) as [x|e]; cbn [rbind]; [|reflexivity].
    destruct (set_son s i x); reflexivity.
  - intros i j Hi Hj. replace j with 0 by lia. auto.
Qed.

(** update_block *)
Lemma update_grid rc cc a r c (L : list (block K)) ds : length L = r * c ->
  (forall s, In s L -> b_desc s = Some (length (bnodes s))) ->
  update_block (Blk rc cc a r c (map Some L) ds) = Ok (Blk rc cc a r c (map Some L) (Some (S (length (flat_map bnodes L))))).
Proof.
  intros HL HD. cbn [update_block].
  assert (G : rfor 0 c (fun j desc => rfor 0 r (fun i desc =>
        let* s := bget (map Some L) (i + j * r) in let* d := bdesc s in Ok (desc + d)) desc) 1 =
      Ok (S (length (flat_map bnodes L)))).
  { assert (FL : forall n desc, n <= c -> rfor 0 n (fun j desc => rfor 0 r (fun i desc =>
        let* s := bget (map Some L) (i + j * r) in let* d := bdesc s in Ok (desc + d)) desc) desc =
        rfor 0 (n * r) (fun k desc => let* s := bget (map Some L) k in let* d := bdesc s in Ok (desc + d)) desc).
    { induction n as [|n IH]; intros desc Hn; [reflexivity|].
      replace (S n * r) with (n * r + r) by lia. rewrite rfor_app, <- IH by lia.
      replace (S n) with (n + 1) at 1 by lia. rewrite rfor_app. destruct (rfor 0 n _ desc) as [x|e]; cbn [rbind]; [|reflexivity].
      cbn [rfor]. rewrite Nat.add_0_l.
      assert (E : forall m lo x, rfor lo m (fun i desc => let* s := bget (map Some L) (i + n * r) in let* d := bdesc s in Ok (desc + d)) x =
        rfor (lo + n * r) m (fun k desc => let* s := bget (map Some L) k in let* d := bdesc s in Ok (desc + d)) x).
      { induction m as [|m IHm]; intros lo y; cbn [rfor]; [reflexivity|]. destruct (bget _ _); cbn [rbind]; [|reflexivity].
        destruct (bdesc _); cbn [rbind]; [|reflexivity]. rewrite IHm. reflexivity. }
      rewrite E. cbn [Nat.add]. destruct (rfor (n * r) r _ x); reflexivity. }
    rewrite FL by lia. replace (c * r) with (length L) by (rewrite HL; lia).
    rewrite (rfor_list L 0 _ (fun s desc => Ok (desc + length (bnodes s)))).
    - clear - L. assert (E : forall l n, rfold (fun s desc => Ok (desc + length (bnodes s))) l n = Ok (n + length (flat_map bnodes l))).
      { induction l as [|x l IH]; intros n; cbn; [f_equal; lia|]. rewrite IH, app_length. f_equal. lia. }
      rewrite E. reflexivity.
    - intros k x Hk n. cbn [Nat.add]. unfold bget. rewrite nth_error_map, Hk. cbn [option_map rbind].
      unfold bdesc. rewrite (HD x (nth_error_In _ _ Hk)). reflexivity. }
  rewrite G. reflexivity.
Qed.
End Blocks.
