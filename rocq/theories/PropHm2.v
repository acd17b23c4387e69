(** * Property C27: construction, copies and conversions of H-matrices *)
From Coq Require Import Arith Lia List Bool ZArith.
From Verif Require Import Fld Inst Ord OrdInst Prog Arr View Spec Loop Cluster ClusterSpec Block BlockSpec BlockP BlockP2 BlockP3 Avector Amatrix AmatrixP2
  Rkmatrix RkSpec RkP Hmatrix HmSpec HmP HmP4 HmP5 HmP6 HmP7 PropHm.
Import ListNotations.

Section C27.
Context {K : fops} {G : ofops}.
Implicit Types (m : mem K) (h : hmatrix G) (b : block G) (D : nat -> nat -> K).

(** The H-matrix constructed from a block tree has one leaf for each leaf of the block tree, with
    the same clusters, low-rank of rank [k] if the leaf is admissible and dense otherwise; each leaf
    has its own new storage, [desc] counts the submatrices, and converting it back gives the
    original block tree. *)
Theorem C27_build_from_block : forall k b m,
  block_tree b -> partition_tree (cp_c (b_rc b)) -> partition_tree (cp_c (b_cc b)) ->
  (forall x, In x (bnodes b) -> b_a x = true -> b_son x = []) ->
  ends (build_from_block_hmatrix k b) m (fun h m' =>
    map hkey (hleaves h) = map (bkey k) (bleaves b) /\ length (hnodes h) = length (bnodes b) /\
    hm_rc h = b_rc b /\ hm_cc h = b_cc b /\ hown m' h /\ hplaced h /\ hdesc_ok h /\
    (forall x, In x (hblocks h) -> next m <= x < next m') /\ keeps (fun a => next m <= fst a) m m' /\
    build_from_hmatrix_block h = Ok b).
Proof.
  intros k b m T P1 P2 Ha. apply wp_ends. eapply wp_conseq; [apply (wp_build k b m T P1 P2)|]. cbv beta.
  intros h m' (H1 & H2 & H3 & H4 & H5 & H6 & H7). destruct (bmatch_cl k b h H1) as [E1 E2].
  split; [eapply bmatch_keys; exact H1|]. split; [|repeat (split; [assumption || (split; assumption)|]); eapply build_back; eauto].
  clear -H1. revert h H1. induction b as [rc cc a rs cs son ds IH] using block_rect'. intros h H.
  inversion H as [? ? ? r d Hk|? ? ? f d|? ? ? ? ? l ? l' d Hne Hl Hl' Hs]; subst; [reflexivity|reflexivity|].
  rewrite bnodes_eq. cbn [b_son]. rewrite flat_some. cbn [hnodes length]. f_equal.
  assert (F : Forall2 (fun x s => length (hnodes s) = length (bnodes x)) l l').
  { apply Forall2_nth_error; [lia|]. intros i x s Hx Hs'. apply (IH x); [apply in_map; eapply nth_error_In; exact Hx|]. eapply Hs; eassumption. }
  clear -F. induction F as [|x s l l' Hxs F IH]; [reflexivity|]. cbn. rewrite !app_length. lia.
Qed.

(** [clone]: a new H-matrix with its own storage that represents the same matrix. *)
Theorem C27_clone : forall h D m, hstr m h -> hrep m h D ->
  ends (clone_hmatrix h) m (fun h' m' =>
    hrep m' h' D /\ hrep m' h D /\ hsim h h' /\ hown m' h' /\ hdesc_ok h' /\
    (forall x, In x (hblocks h') -> next m <= x) /\ keeps (fun a => next m <= fst a) m m').
Proof.
  intros h D m Hs HD. apply wp_ends. apply (wp_clone_h m h D); auto. intros h' m' H1 H2 H3 H4 H5 H6.
  split; [exact H4|]. split; [|auto]. eapply hrep_blk; [exact HD|exact H6|]. intros a Ha. apply (hstr_bound m) in Ha; [cbv beta; lia|exact Hs].
Qed.

(** [clonestructure]: the same structure and the same ranks, entries not initialised. *)
Theorem C27_clonestructure : forall h m, hstr m h ->
  ends (clonestructure_hmatrix h) m (fun h' m' =>
    hsim h h' /\ hranks h' = hranks h /\ hown m' h' /\ hdesc_ok h' /\
    (forall x, In x (hblocks h') -> next m <= x) /\ keeps (fun a => next m <= fst a) m m').
Proof.
  intros h m Hs. apply wp_ends. apply (wp_clonestructure_h m h); auto. intros h' m' H1 H2 H3 H4 H5 H6. auto 10.
Qed.

(** [copy]: the target, which has the same structure but maybe different ranks, represents the
    matrix of the source afterwards. *)
Theorem C27_copy : forall (src trg : hmatrix G) D m,
  hrep m src D -> (forall x, In x (hblocks src) -> x < next m) -> hown m trg -> hsim src trg ->
  (forall x, In x (hblocks src) -> ~ In x (hblocks trg)) ->
  ends (copy_hmatrix src trg) m (fun trg' m' =>
    hrep m' trg' D /\ hrep m' src D /\ hsim src trg' /\ hranks trg' = hranks src /\ hown m' trg' /\
    (forall x, In x (hblocks trg') -> In x (hblocks trg) \/ next m <= x) /\
    keeps (fun a => In (fst a) (hblocks trg) \/ next m <= fst a) m m').
Proof.
  intros src trg D m HD Hb Ho Hs Hd. apply wp_ends. eapply (wp_copy_h m src trg D m); auto. intros trg' m' H1 H2 H3 H4 H5 H6.
  split; [exact H3|]. split; [|auto]. eapply hrep_blk; [exact HD|exact H6|]. intros a Ha [Ha'|Ha']; [exact (Hd _ Ha Ha')|]. apply Hb in Ha. lia.
Qed.

(** [clear]: the zero matrix. *)
Theorem C27_clear : forall h m, hown m h ->
  ends (clear_hmatrix h) m (fun h' m' =>
    hrep m' h' (fun _ _ => f0) /\ hsim h h' /\ hown m' h' /\
    (forall x, In x (hblocks h') -> In x (hblocks h) \/ next m <= x) /\ keeps (fun a => In (fst a) (hblocks h) \/ next m <= fst a) m m').
Proof. intros h m Ho. apply wp_ends. apply wp_clear_h; auto. Qed.

(** [clear_upper]: the entries above the diagonal (and on it unless [strict]) are set to zero. *)
Theorem C27_clear_upper : forall strict h D m, hown m h -> hrep m h D -> hsquare h ->
  ends (clear_upper_hmatrix strict h) m (fun h' m' =>
    hrep m' h' (fun i j => if (if strict then i <? j else i <=? j) then f0 else D i j) /\ hsim h h' /\ hown m' h' /\
    (forall x, In x (hblocks h') -> In x (hblocks h) \/ next m <= x) /\ keeps (fun a => In (fst a) (hblocks h) \/ next m <= fst a) m m').
Proof. intros strict h D m Ho HD Hs. apply wp_ends. eapply wp_clear_upper_h; eauto. Qed.

(** [identity]: the unit matrix, provided that each leaf is a dense diagonal block or lies off the
    diagonal. *)
Theorem C27_identity : forall h m, hown m h -> hplaced h -> hm_rc h = hm_cc h ->
  (forall s, In s (hleaves h) -> (hm_rc s = hm_cc s /\ hm_r s = None) \/ (cp_eqb (hm_rc s) (hm_cc s) = false /\ apart (hm_rc s) (hm_cc s))) ->
  ends (identity_hmatrix h) m (fun h' m' =>
    hrep m' h' (fun i j => if i =? j then f1 else f0) /\ hsim h h' /\ hown m' h' /\
    (forall x, In x (hblocks h') -> In x (hblocks h) \/ next m <= x) /\ keeps (fun a => In (fst a) (hblocks h) \/ next m <= fst a) m m').
Proof.
  intros h m Ho Hp E Hd. apply wp_ends. apply wp_identity_h; auto. intros h' m' H1 H2 H3 H4 H5.
  split; [|auto]. eapply hrep_ext; [exact H3|]. intros i j _ _. unfold delta. rewrite E.
  destruct (Nat.eqb_spec (c_off (cp_c (hm_cc h)) + i) (c_off (cp_c (hm_cc h)) + j)); destruct (Nat.eqb_spec i j); auto; lia.
Qed.

(** A low-rank leaf on the diagonal is set to zero by [identity] ... *)
Theorem C27_identity_rk_refuted : forall rc (r : rkm) ds m,
  hown m (HM rc rc (Some r) None None 0 0 ds : hmatrix G) ->
  ends (identity_hmatrix (HM rc rc (Some r) None None 0 0 ds)) m (fun h' m' => hrep m' h' (fun _ _ => f0)).
Proof.
  intros rc r ds m [Hs _]. inversion Hs; subst. apply wp_ends. eapply wp_conseq; [apply (wp_identity_leaf m (HM rc rc (Some r) None None 0 0 ds) eq_refl Hs)|].
  cbv beta. intros h' m' ((_ & _ & _ & H) & _). exact H.
Qed.
(** ... and by [clear_upper], which drops its lower triangular part as well. *)
Theorem C27_clear_upper_rk_refuted : forall strict rc (r : rkm) ds m,
  hown m (HM rc rc (Some r) None None 0 0 ds : hmatrix G) ->
  ends (clear_upper_hmatrix strict (HM rc rc (Some r) None None 0 0 ds)) m (fun h' m' => hrep m' h' (fun _ _ => f0)).
Proof.
  intros strict rc r ds m [Hs _]. inversion Hs; subst. apply wp_ends. cbn [clear_upper_hmatrix].
  apply (wp_rk_zero m rc rc r ds); auto.
Qed.

Lemma sum_flat A (f g : A -> nat) (P Q : A -> list A) l :
  (forall s, In s l -> list_sum (map f (P s)) = list_sum (map g (Q s))) ->
  list_sum (map f (flat_map P l)) = list_sum (map g (flat_map Q l)).
Proof.
  induction l as [|a l IH]; intros H; [reflexivity|]. cbn [flat_map]. rewrite !map_app, !list_sum_app, IH; [|intros s Hs; apply H; right; exact Hs].
  rewrite H; [reflexivity|left; reflexivity].
Qed.

(** Storage: the near field is the sum over all dense leaves, the far field the sum over all
    low-rank leaves, and the total size also counts one structure per submatrix. *)
Theorem C27_sizes : forall (Z : sizes) h m, hstr m h ->
  ends (K := K) (getnearsize_hmatrix Z h) m (fun n m' => m' = m /\
    n = list_sum (map (fun s => match hm_f s with Some _ => sz_amatrix Z + sz_field Z * hrows s * hcols s | None => 0 end) (hleaves h))) /\
  ends (K := K) (getfarsize_hmatrix Z h) m (fun n m' => m' = m /\
    n = list_sum (map (fun s => match hm_r s with Some r => sz_rkmatrix Z + sz_field Z * (hrows s + hcols s) * rk_k r | None => 0 end) (hleaves h))) /\
  ends (K := K) (getsize_hmatrix Z h) m (fun n m' => m' = m /\ forall n1 n2,
    run (K := K) (getnearsize_hmatrix Z h) m = Ok (n1, m) -> run (K := K) (getfarsize_hmatrix Z h) m = Ok (n2, m) ->
    n = n1 + n2 + length (hnodes h) * sz_hmatrix Z).
Proof.
  intros Z h m Hs.
  assert (Ef : list_sum (map (size_f Z) (hnodes h)) = list_sum (map (fun s => match hm_f s with Some _ => sz_amatrix Z + sz_field Z * hrows s * hcols s | None => 0 end) (hleaves h)) /\
    list_sum (map (size_r Z) (hnodes h)) = list_sum (map (fun s => match hm_r s with Some r => sz_rkmatrix Z + sz_field Z * (hrows s + hcols s) * rk_k r | None => 0 end) (hleaves h))).
  { induction Hs as [rc cc r ds H1 H2 H3|rc cc f ds H1 H2 H3 H4 H5 H6|rc cc l rs cs ds hs ws P1 P2 P3 P4 P5 P6 P7 IH].
    - cbn. unfold getsize_rkmatrix, getsize_heap_amatrix, hrows, hcols. cbn. destruct H3 as (-> & -> & _ & _ & _ & _ & _ & -> & -> & _). rewrite H1, H2. split; lia.
    - cbn. unfold getsize_amatrix, getsize_heap_amatrix, hrows, hcols. cbn. rewrite H1, H2, H3. split; lia.
    - cbn [hnodes hleaves map]. split.
      + transitivity (list_sum (map (size_f Z) (flat_map hnodes l))); [reflexivity|]. apply sum_flat. intros s Hs. apply IH, Hs.
      + transitivity (list_sum (map (size_r Z) (flat_map hnodes l))); [reflexivity|]. apply sum_flat. intros s Hs. apply IH, Hs. }
  assert (Hn : ends (K := K) (getnearsize_hmatrix Z h) m (fun n m' => m' = m /\ n = list_sum (map (size_f Z) (hnodes h)))).
  { apply wp_ends. eapply wp_sizeloop; [exact Hs|]. auto. }
  assert (Hf : ends (K := K) (getfarsize_hmatrix Z h) m (fun n m' => m' = m /\ n = list_sum (map (size_r Z) (hnodes h)))).
  { apply wp_ends. eapply wp_sizeloop; [exact Hs|]. auto. }
  destruct Ef as [E1 E2]. rewrite <- E1, <- E2. split; [exact Hn|]. split; [exact Hf|].
  apply wp_ends. eapply wp_sizeloop; [exact Hs|]. split; [reflexivity|]. intros n1 n2 R1 R2.
  destruct Hn as (a1 & m1 & X1 & _ & ->). destruct Hf as (a2 & m2 & X2 & _ & ->). rewrite X1 in R1. rewrite X2 in R2. injection R1 as <- _. injection R2 as <- _.
  generalize (hnodes h). intros l. induction l as [|s l IH]; [reflexivity|]. cbn [map list_sum fold_right length].
  change (fold_right Nat.add 0) with list_sum. rewrite IH. lia.
Qed.
End C27.

Section C27s.
Context {K : fops} {G : ofops} (L : ring_laws K).
(** [scale]: the matrix is multiplied by [alpha]. *)
Theorem C27_scale : forall alpha (h : hmatrix G) (D : nat -> nat -> K) m, hown m h -> hrep m h D ->
  ends (scale_hmatrix alpha h) m (fun h' m' =>
    hrep m' h' (fun i j => alpha * D i j)%F /\ hsim h h' /\ hown m' h' /\
    (forall x, In x (hblocks h') -> In x (hblocks h) \/ next m <= x) /\ keeps (fun a => In (fst a) (hblocks h) \/ next m <= fst a) m m').
Proof. intros alpha h D m Ho HD. apply wp_ends. eapply (wp_scale_h L); eauto. Qed.
End C27s.

(** The H-matrix [xh] of C26 meets the hypotheses; its block tree is the one below. *)
Definition xhb : block QcO :=
  Blk (CP [] xht) (CP [] xht) false 2 2 [Some (Blk xh0 xh0 false 0 0 [] (Some 1)); Some (Blk xh1 xh0 true 0 0 [] (Some 1));
    Some (Blk xh0 xh1 false 0 0 [] (Some 1)); Some (Blk xh1 xh1 false 0 0 [] (Some 1))] (Some 5).

Lemma xh_str : hstr (mem_of xhm) xh.
Proof.
  eapply (hstr_super _ _ _ _ 2 2 _ (fun i => nth i [1; 2] 0) (fun i => nth i [1; 2] 0)); try reflexivity; try lia.
  - intros [|[|i]] [|[|j]] s Hi Hj Hs; try lia; cbn in Hs; injection Hs as <-; split; reflexivity.
  - assert (Ha : forall A : mat, mblk A < 7 -> moff A = 0 -> (forall i j, i < mrows A -> j < mcols A -> i + j * mld A < length (nth (mblk A) xhm [])) -> malloc (mem_of xhm) A).
    { intros A Hb Ho Hl i j Hi Hj. unfold ma. rewrite Ho. specialize (Hl i j Hi Hj). cbn [get mem_of]. unfold get, mem_of; cbn.
      destruct A as [bl of ld ro co ow]; cbn in *. subst of. cbn in *.
      destruct bl as [|[|[|[|[|[|[|bl]]]]]]]; cbn in Hl |- *; try lia;
        destruct (i + j * ld) as [|[|[|[|n]]]]; cbn in *; try lia; discriminate. }
    intros s [<-|[<-|[<-|[<-|[]]]]]; constructor; try reflexivity; try (unfold mwf; cbn; lia); try (apply Ha; cbn; lia).
    unfold rkown. cbn. repeat split; try lia; try (unfold mwf; cbn; lia); apply Ha; cbn; lia.
Qed.

Lemma xht_part : partition_tree xht.
Proof.
  intros s Hs; cbn in Hs; repeat (destruct Hs as [<-|Hs]; [cbn; try (split; [lia|]); try reflexivity; intros N; try congruence; repeat split; lia|]); destruct Hs.
Qed.

Example C27_hyps :
  hown (mem_of xhm) xh /\ hrep (mem_of xhm) xh xhD /\ hplaced xh /\ hsquare xh /\ hsim xh xh /\
  (forall s, In s (hleaves xh) -> (hm_rc s = hm_cc s /\ hm_r s = None) \/ (cp_eqb (hm_rc s) (hm_cc s) = false /\ apart (hm_rc s) (hm_cc s))) /\
  block_tree xhb /\ partition_tree xht /\ (forall x, In x (bnodes xhb) -> b_a x = true -> b_son x = []) /\
  build_from_hmatrix_block xh = Ok xhb.
Proof.
  split; [split; [exact xh_str|]|].
  { cbn. repeat constructor; cbn; lia. }
  split; [exact xh_rep|]. split.
  { apply (hplaced_super _ _ _ _ _ _ (fun i => nth i [1; 2] 0) (fun i => nth i [1; 2] 0)).
    intros [|[|i]] [|[|j]] s Hi Hj Hs; try lia; cbn in Hs; injection Hs as <-; repeat split; try reflexivity; apply hplaced_leaf; reflexivity. }
  split.
  { apply (hsquare_super _ _ _ _ (fun i => nth i [1; 2] 0)).
    - intros [|[|i]] [|[|j]] s Hi Hj Hs; try lia; cbn in Hs; injection Hs as <-; split; reflexivity.
    - intros [|[|j]] s Hj Hs; try lia; cbn in Hs; injection Hs as <-; constructor. }
  split; [repeat constructor|]. split.
  { intros s [<-|[<-|[<-|[<-|[]]]]]; cbn; [left|right|right|left]; split; try reflexivity; unfold apart; cbn; lia. }
  split.
  { intros s Hs. cbn in Hs. destruct Hs as [<-|Hs].
    - split; [reflexivity|]. right. exists [xh0; xh1], [xh0; xh1],
        [[Blk xh0 xh0 false 0 0 [] (Some 1); Blk xh1 xh0 true 0 0 [] (Some 1)]; [Blk xh0 xh1 false 0 0 [] (Some 1); Blk xh1 xh1 false 0 0 [] (Some 1)]].
      split; [right; split; [discriminate|reflexivity]|]. split; [right; split; [discriminate|reflexivity]|]. split; [intros [E _]; discriminate|].
      repeat (split; [reflexivity|]). repeat constructor.
    - repeat (destruct Hs as [<-|Hs]; [split; [reflexivity|left; auto]|]). destruct Hs. }
  split; [exact xht_part|]. split.
  { intros x Hx. cbn in Hx. repeat (destruct Hx as [<-|Hx]; [cbn; congruence|]). destruct Hx. }
  reflexivity.
Qed.

Print Assumptions C27_build_from_block.
Print Assumptions C27_clone.
Print Assumptions C27_clonestructure.
Print Assumptions C27_copy.
Print Assumptions C27_clear.
Print Assumptions C27_clear_upper.
Print Assumptions C27_identity.
Print Assumptions C27_identity_rk_refuted.
Print Assumptions C27_clear_upper_rk_refuted.
Print Assumptions C27_sizes.
Print Assumptions C27_scale.
Print Assumptions C27_hyps.
