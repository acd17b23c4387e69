(** * Proofs about traversal, depth, restructuring and distances of clusters *)
From Coq Require Import Arith Lia List Bool Permutation.
From Verif Require Import Fld Ord Prog Arr Loop Cluster ClusterSpec ClusterP.
Import ListNotations.

Lemma rfold_app {A S} (body : A -> S -> res S) l1 l2 s :
  rfold body (l1 ++ l2) s = rbind (rfold body l1 s) (rfold body l2).
Proof.
  revert s. induction l1 as [|x l1 IH]; intros s; cbn; [reflexivity|].
  destruct (body x s); cbn; [apply IH|reflexivity].
Qed.

Section Walk.
  Context {K : ofops}.
  Implicit Types t c : cluster K.

  Fixpoint walks (l : list (cluster K)) (m : nat) : list (visit K) :=
    match l with [] => [] | s :: l' => walk s m ++ walks l' (m + length (nodes s)) end.

  Lemma walk_eq t n : walk t n = Enter n t :: walks (c_sons t) (n + 1) ++ [Leave n t].
  Proof. destruct t as [size off sons dim b1 b2 ds typ]. reflexivity. Qed.

  Lemma nodes_len_pos t : 0 < length (nodes t).
  Proof. rewrite nodes_eq. cbn. lia. Qed.

  Lemma desc_sub t c : desc_ok t -> In c (c_sons t) -> desc_ok c.
  Proof. intros H Hc s Hs. apply H. rewrite in_nodes. right. eauto. Qed.

  Lemma part_sub t c : partition_tree t -> In c (c_sons t) -> partition_tree c.
  Proof. intros H Hc s Hs. apply H. rewrite in_nodes. right. eauto. Qed.

  Lemma boxes_sub t c : boxes_ok t -> In c (c_sons t) -> boxes_ok c.
  Proof. intros H Hc s Hs. apply H. rewrite in_nodes. right. eauto. Qed.

  Definition on_visit {S} (pre post : option (cluster K -> nat -> S -> res S)) (v : visit K) (s : S) : res S :=
    match v with Enter n t => call pre t n s | Leave n t => call post t n s end.

  Lemma iterate_walk {S} (pre post : option (cluster K -> nat -> S -> res S)) t :
    desc_ok t -> forall n (s : S), iterate_cluster pre post t n s = rfold (on_visit pre post) (walk t n) s.
  Proof.
    induction t as [size off sons dim b1 b2 ds typ IH] using cluster_rect'. intros D n s.
    set (t := Cl size off sons dim b1 b2 ds typ) in *.
    rewrite walk_eq. cbn [rfold on_visit]. unfold t at 1. cbn [iterate_cluster]. fold t.
    destruct (call pre t n s) as [s1|e]; cbn [rbind]; [|reflexivity].
    assert (F : forall m s0, rfold (fun t1 '(tname1, s) =>
        let* s := iterate_cluster pre post t1 tname1 s in
        let* d := get_desc t1 in Ok (tname1 + d, s)) sons (m, s0)
      = let* s := rfold (on_visit pre post) (walks sons m) s0 in
        Ok (m + length (flat_map nodes sons), s)).
    { assert (D' : forall c, In c sons -> desc_ok c) by (intros c Hc; eapply desc_sub; [exact D|exact Hc]).
      clear D. clearbody t. clear s s1 n t. induction IH as [|c l Hc Hl IHl]; intros m s0.
      - cbn. rewrite Nat.add_0_r. reflexivity.
      - cbn [rfold walks flat_map]. rewrite Hc by (apply D'; left; reflexivity).
        rewrite rfold_app. destruct (rfold _ (walk c m) s0) as [s1|e]; cbn [rbind]; [|reflexivity].
        unfold get_desc at 1. rewrite (D' c (or_introl eq_refl) c (nodes_refl c)). cbn [rbind].
        rewrite IHl by (intros; apply D'; right; assumption).
        destruct (rfold _ (walks l _) s1); cbn; [|reflexivity]. do 2 f_equal. rewrite app_length. lia. }
    rewrite F, rfold_app. change (c_sons t) with sons. destruct (rfold _ (walks _ _) s1) as [s2|e].
    - cbn [rbind]. unfold get_desc. rewrite (D t (nodes_refl t)). cbn [rbind].
      rewrite nodes_eq. change (c_sons t) with sons. cbn [length].
      replace (n + 1 + _ =? _) with true by (symmetry; apply Nat.eqb_eq; lia). cbn [rassert rbind rfold].
      cbn [on_visit]. destruct (call post t n s2); reflexivity.
    - reflexivity.
  Qed.

  Lemma entered_app (l1 l2 : list (visit K)) : entered (l1 ++ l2) = entered l1 ++ entered l2.
  Proof. apply flat_map_app. Qed.
  Lemma left_app (l1 l2 : list (visit K)) : left_at (l1 ++ l2) = left_at l1 ++ left_at l2.
  Proof. apply flat_map_app. Qed.

  Lemma entered_cons n t (l : list (visit K)) : entered (Enter n t :: l) = (n, t) :: entered l.
  Proof. reflexivity. Qed.
  Lemma left_cons n t (l : list (visit K)) : left_at (Enter n t :: l) = left_at l.
  Proof. reflexivity. Qed.

  Lemma entered_one n t : entered [Leave (K:=K) n t] = [].
  Proof. reflexivity. Qed.
  Lemma left_one n t : left_at [Leave (K:=K) n t] = [(n, t)].
  Proof. reflexivity. Qed.

  Lemma combine_app' {A B} (l1 l2 : list A) (m1 m2 : list B) : length l1 = length m1 ->
    combine (l1 ++ l2) (m1 ++ m2) = combine l1 m1 ++ combine l2 m2.
  Proof.
    revert m1. induction l1 as [|x l1 IH]; intros [|y m1] H; cbn in *; try discriminate; [reflexivity|].
    f_equal. apply IH. congruence.
  Qed.

  Lemma entered_walk t : forall n, entered (walk t n) = combine (seq n (length (nodes t))) (nodes t).
  Proof.
    induction t as [size off sons dim b1 b2 ds typ IH] using cluster_rect'. intros n.
    set (t := Cl size off sons dim b1 b2 ds typ) in *.
    rewrite walk_eq, entered_cons, nodes_eq, entered_app. cbn [length seq combine app].
    f_equal. rewrite entered_one, app_nil_r.
    change (c_sons t) with sons. replace (S n) with (n + 1) by lia. generalize (n + 1) as m.
    clearbody t. clear t. induction IH as [|c l Hc Hl IHl]; intros m; [reflexivity|].
    cbn [walks flat_map]. rewrite entered_app, Hc, IHl, app_length, seq_app, combine_app' by (apply seq_length).
    reflexivity.
  Qed.

  Lemma left_walk t : forall n, Permutation (left_at (walk t n)) (entered (walk t n)).
  Proof.
    induction t as [size off sons dim b1 b2 ds typ IH] using cluster_rect'. intros n.
    set (t := Cl size off sons dim b1 b2 ds typ) in *.
    rewrite walk_eq, left_cons, entered_cons, left_app, entered_app, entered_one, left_one, app_nil_r.
    eapply Permutation_trans; [apply Permutation_app_comm|]. cbn [app]. apply perm_skip.
    change (c_sons t) with sons. generalize (n + 1) as m.
    clearbody t. clear t. induction IH as [|c l Hc Hl IHl]; intros m; [apply Permutation_refl|].
    cbn [walks]. rewrite left_app, entered_app. apply Permutation_app; auto.
  Qed.

  (** The walk through a subtree is a contiguous part of the whole walk. *)
  Lemma walk_nested t : forall n i s, nth_error (nodes t) i = Some s ->
    exists l1 l2, walk t n = l1 ++ walk s (n + i) ++ l2.
  Proof.
    induction t as [size off sons dim b1 b2 ds typ IH] using cluster_rect'. intros n i s H.
    set (t := Cl size off sons dim b1 b2 ds typ) in *. rewrite nodes_eq in H. destruct i as [|i].
    - cbn in H. injection H as <-. exists [], []. cbn [app]. rewrite app_nil_r, Nat.add_0_r. reflexivity.
    - cbn [nth_error] in H. change (c_sons t) with sons in H. rewrite walk_eq. change (c_sons t) with sons.
      assert (F : forall m j, nth_error (flat_map nodes sons) j = Some s ->
        exists l1 l2, walks sons m = l1 ++ walk s (m + j) ++ l2).
      { clear H. clearbody t. clear t i n. induction IH as [|c l Hc Hl IHl]; intros m j H.
        - destruct j; discriminate H.
        - cbn [flat_map walks] in *. destruct (Nat.ltb_spec j (length (nodes c))) as [L|L].
          + rewrite nth_error_app1 in H by exact L. destruct (Hc m j s H) as (l1 & l2 & ->).
            exists l1, (l2 ++ walks l (m + length (nodes c))). rewrite <- !app_assoc. reflexivity.
          + rewrite nth_error_app2 in H by exact L.
            destruct (IHl (m + length (nodes c)) _ H) as (l1 & l2 & ->).
            exists (walk c m ++ l1), l2. rewrite <- !app_assoc.
            replace (m + length (nodes c) + (j - length (nodes c))) with (m + j) by lia. reflexivity. }
      destruct (F (n + 1) i H) as (l1 & l2 & ->).
      exists (Enter n t :: l1), (l2 ++ [Leave n t]). cbn [app]. f_equal. rewrite <- !app_assoc.
      replace (n + 1 + i) with (n + S i) by lia. reflexivity.
  Qed.

  (** ** Enumeration *)
  Lemma rok_enumerate t : desc_ok t -> forall n (tn : arr (cluster K)) len P F (Q : arr (cluster K) -> Prop),
    aprt tn len P F -> n + length (nodes t) <= len ->
    (forall tn', aprt tn' len (fun i => n <= i < n + length (nodes t) \/ P i)
       (fun i => if (n <=? i) && (i <? n + length (nodes t)) then nth (i - n) (nodes t) t else F i) -> Q tn') ->
    rok (enumerate t n tn) Q.
  Proof.
    induction t as [size off sons dim b1 b2 ds typ IH] using cluster_rect'. intros D n tn len P F Q A Hn HQ.
    set (t := Cl size off sons dim b1 b2 ds typ) in *.
    unfold t at 1. cbn [enumerate]. fold t. apply rok_bind. eapply rok_aset_prt; [exact A| |].
    { pose proof (nodes_len_pos t). lia. }
    intros tn1 A1. apply rok_bind.
    assert (FF : forall m tn0 P0 F0, aprt tn0 len P0 F0 -> m + length (flat_map nodes sons) <= len ->
      rok (rfold (fun t1 '(tname1, tn) =>
        let* tn := enumerate t1 tname1 tn in
        let* d := get_desc t1 in Ok (tname1 + d, tn)) sons (m, tn0))
      (fun '(m', tn') => m' = m + length (flat_map nodes sons) /\
        aprt tn' len (fun i => m <= i < m + length (flat_map nodes sons) \/ P0 i)
         (fun i => if (m <=? i) && (i <? m + length (flat_map nodes sons)) then nth (i - m) (flat_map nodes sons) t else F0 i))).
    { assert (D' : forall c, In c sons -> desc_ok c) by (intros c Hc; eapply desc_sub; [exact D|exact Hc]).
      clear D A1 HQ Hn A. clearbody t. clear tn tn1 P F Q n. induction IH as [|c l Hc Hl IHl]; intros m tn0 P0 F0 A Hm.
      - cbn. split; [lia|]. eapply aprt_ext; [exact A| |]; cbn; intros i Hi Hp; [intuition lia|].
        bsplit; reflexivity || lia.
      - cbn [rfold flat_map] in *. rewrite app_length in *. apply rok_bind. apply rok_bind.
        eapply (Hc (D' c (or_introl eq_refl))); [exact A|lia|].
        intros tn1 A1. unfold get_desc at 1. rewrite (D' c (or_introl eq_refl) c (nodes_refl c)). cbn [rbind rok].
        eapply rok_conseq; [eapply IHl; [intros; apply D'; right; assumption|exact A1|lia]|].
        intros [m' tn'] [-> A2]. split; [lia|]. eapply aprt_ext; [exact A2| |]; cbn; intros i Hi Hp.
        + destruct (Nat.ltb_spec i (m + length (nodes c))); intuition lia.
        + bsplit; try lia; try reflexivity.
          * rewrite app_nth2 by lia. f_equal. lia.
          * rewrite app_nth1 by lia. apply nth_indep. lia. }
    eapply rok_conseq; [eapply FF; [exact A1|]|].
    { rewrite nodes_eq in Hn. change (c_sons t) with sons in Hn. cbn [length] in Hn. lia. }
    intros [m' tn'] [-> A2]. unfold get_desc. rewrite (D t (nodes_refl t)). cbn [rbind].
    rewrite nodes_eq in *. change (c_sons t) with sons in *. cbn [length] in *.
    replace (n + 1 + _ =? _) with true by (symmetry; apply Nat.eqb_eq; lia). cbn [rassert rbind rok].
    apply HQ. eapply aprt_ext; [exact A2| |]; cbn; intros i Hi Hp.
    - destruct (Nat.eq_dec i n); [|intuition lia]. right. left. assumption.
    - unfold afupd. bsplit; try lia; try reflexivity.
      + replace (i - n) with (S (i - (n + 1))) by lia. reflexivity.
      + subst i. rewrite Nat.sub_diag. reflexivity.
  Qed.

  Lemma rok_enumerate_cluster t : desc_ok t ->
    rok (enumerate_cluster t) (fun tn => aval tn (length (nodes t)) (fun i => nth i (nodes t) t)).
  Proof.
    intros D. unfold enumerate_cluster. unfold get_desc. rewrite (D t (nodes_refl t)). cbn [rbind].
    eapply (rok_enumerate t D 0 _ _ (fun _ => False) (fun _ => t)); [apply anew_prt; tauto|lia|].
    intros tn' A. eapply aprt_aval; [|eapply aprt_ext with (P' := fun i => i < length (nodes t)); [exact A| |]].
    - auto.
    - cbn. intros. left. lia.
    - cbn. intros i Hi _. bsplit; try lia. rewrite Nat.sub_0_r. reflexivity.
  Qed.

  (** ** Depth *)
  Lemma levels_ne t : levels t <> [].
  Proof.
    induction t as [size off sons dim b1 b2 ds typ IH] using cluster_rect'.
    destruct sons as [|s0 sons]; cbn; [discriminate|]. inversion IH; subst.
    destruct (levels s0); [contradiction|discriminate].
  Qed.

  Definition is_max (l : list nat) (m : nat) : Prop := In m l /\ forall x, In x l -> x <= m.
  Definition is_min (l : list nat) (m : nat) : Prop := In m l /\ forall x, In x l -> m <= x.

  Lemma fold_max (g : cluster K -> nat) l : forall a,
    (fold_left (fun m s => Nat.max (g s) m) l a = a \/ exists s, In s l /\ fold_left (fun m s => Nat.max (g s) m) l a = g s) /\
    a <= fold_left (fun m s => Nat.max (g s) m) l a /\ forall s, In s l -> g s <= fold_left (fun m s => Nat.max (g s) m) l a.
  Proof.
    induction l as [|s l IH]; intros a; cbn [fold_left].
    - split; [left; reflexivity|]. split; [lia|]. intros s [].
    - destruct (IH (Nat.max (g s) a)) as (A & B & C). split; [|split].
      + destruct A as [A|(s' & H & A)].
        * rewrite A. destruct (Nat.max_spec (g s) a) as [[_ ->]|[_ ->]]; [left; reflexivity|right; exists s; cbn; auto].
        * right. exists s'. cbn. auto.
      + lia.
      + intros s' [->|H]; [lia|apply C; exact H].
  Qed.

  Lemma fold_min (g : cluster K -> nat) l : forall a,
    (fold_left (fun m s => Nat.min (g s) m) l a = a \/ exists s, In s l /\ fold_left (fun m s => Nat.min (g s) m) l a = g s) /\
    fold_left (fun m s => Nat.min (g s) m) l a <= a /\ forall s, In s l -> fold_left (fun m s => Nat.min (g s) m) l a <= g s.
  Proof.
    induction l as [|s l IH]; intros a; cbn [fold_left].
    - split; [left; reflexivity|]. split; [lia|]. intros s [].
    - destruct (IH (Nat.min (g s) a)) as (A & B & C). split; [|split].
      + destruct A as [A|(s' & H & A)].
        * rewrite A. destruct (Nat.min_spec (g s) a) as [[_ ->]|[_ ->]]; [right; exists s; cbn; auto|left; reflexivity].
        * right. exists s'. cbn. auto.
      + lia.
      + intros s' [->|H]; [lia|apply C; exact H].
  Qed.

  Lemma getdepth_levels t : is_max (levels t) (getdepth t).
  Proof.
    induction t as [size off sons dim b1 b2 ds typ IH] using cluster_rect'. rewrite Forall_forall in IH.
    destruct sons as [|s0 sons]; [split; cbn; [auto|intuition lia]|].
    cbn [getdepth levels]. set (l := s0 :: sons) in *.
    destruct (fold_max getdepth l 0) as (A & _ & C). split.
    - apply in_map. apply in_flat_map. destruct A as [A|(s & Hs & A)].
      + exists s0. split; [left; reflexivity|]. destruct (IH s0 (or_introl eq_refl)) as [I1 I2].
        specialize (C s0 (or_introl eq_refl)). replace (fold_left _ l 0) with (getdepth s0) by lia. exact I1.
      + exists s. split; [exact Hs|]. rewrite A. apply (IH s Hs).
    - intros x Hx. apply in_map_iff in Hx as (y & <- & Hy). apply in_flat_map in Hy as (s & Hs & Hy).
      specialize (C s Hs). pose proof (proj2 (IH s Hs) y Hy). lia.
  Qed.

  Lemma getmindepth_levels t : is_min (levels t) (getmindepth t).
  Proof.
    induction t as [size off sons dim b1 b2 ds typ IH] using cluster_rect'. rewrite Forall_forall in IH.
    destruct sons as [|s0 sons]; [split; cbn; [auto|intuition lia]|].
    cbn [getmindepth levels]. destruct (fold_min getmindepth sons (getmindepth s0)) as (A & B & C). split.
    - apply in_map. apply in_flat_map. destruct A as [A|(s & Hs & A)]; rewrite A.
      + exists s0. split; [left; reflexivity|]. apply IH. left. reflexivity.
      + exists s. split; [right; exact Hs|]. apply IH. right. exact Hs.
    - intros x Hx. apply in_map_iff in Hx as (y & <- & Hy). apply in_flat_map in Hy as (s & Hs & Hy).
      pose proof (proj2 (IH s Hs) y Hy). destruct Hs as [<-|Hs]; [lia|]. specialize (C s Hs). lia.
  Qed.
End Walk.

(** ** Distances and diameters *)
Section Dist.
  Context {K : ofops} (L : ofield_laws K).
  Add Ring Kring : (rl_ring K (fl_ring K (ol_field K L))).
  Let O : order_laws K := ofield_order L.

  Lemma fsq_lt (a b : K) : fle f0 a -> flt a b = true -> flt (fmul a a) (fmul b b) = true.
  Proof.
    intros Ha H. apply (flt_sub L). replace (fsub (fmul b b) (fmul a a)) with (fmul (fsub b a) (fadd b a)) by ring.
    apply (ol_mul K L); [apply (proj1 (flt_sub L _ _) H)|].
    assert (flt f0 b = true) by (eapply (ole_lt_trans O); eassumption).
    destruct (fle_cases L _ _ Ha) as [<-|Ha']; [replace (fadd b f0) with b by ring; assumption|].
    apply (flt_add_pos L); assumption.
  Qed.

  Lemma sq_mono (sq : K -> K) x y : sqrt_laws sq -> fle f0 x -> fle x y -> fle (sq x) (sq y).
  Proof.
    intros S Hx H. assert (Hy : fle f0 y) by (eapply (ole_trans O); eassumption).
    destruct (S x Hx) as [A1 A2], (S y Hy) as [B1 B2]. unfold fle. destruct (flt (sq y) (sq x)) eqn:E; [|reflexivity].
    pose proof (fsq_lt _ _ B1 E) as C. rewrite A2, B2 in C. unfold fle in H. congruence.
  Qed.

  Lemma fabs_nn (x : K) : fle f0 (fabs x).
  Proof.
    unfold fabs. destruct (flt x f0) eqn:E; [|exact E]. apply (fle_opp_nn L). apply (olt_le O). exact E.
  Qed.
  Lemma fabs_pos (x : K) : fle f0 x -> fabs x = x.
  Proof. unfold fabs, fle. intros ->. reflexivity. Qed.
  Lemma fabs_opp (x : K) : fabs (fopp x) = fabs x.
  Proof.
    destruct (flt x f0) eqn:E.
    - rewrite (fabs_pos (fopp x)) by (apply (fle_opp_nn L); apply (olt_le O); exact E). unfold fabs. rewrite E. reflexivity.
    - rewrite (fabs_pos x) by exact E. destruct (fle_cases L _ _ E) as [<-|P].
      + replace (fopp f0) with (@f0 K) by ring. apply fabs_pos. apply (ole_refl O).
      + unfold fabs. replace (flt (fopp x) f0) with true; [ring|]. symmetry. apply (flt_sub L).
        replace (fsub f0 (fopp x)) with x by ring. exact P.
  Qed.
  Lemma fabs_sym (x y : K) : fabs (fsub x y) = fabs (fsub y x).
  Proof. rewrite <- fabs_opp. f_equal. ring. Qed.
  Lemma fabs_sq (x : K) : fmul (fabs x) (fabs x) = fmul x x.
  Proof. unfold fabs. destruct (flt x f0); ring. Qed.
  Lemma fabs_sq_le (x y : K) : fle (fabs x) (fabs y) -> fle (fmul x x) (fmul y y).
  Proof. intros H. rewrite <- (fabs_sq x), <- (fabs_sq y). apply (fsq_le L); [apply fabs_nn|exact H]. Qed.
  Lemma fle_abs (x : K) : fle x (fabs x).
  Proof.
    unfold fabs. destruct (flt x f0) eqn:E; [|apply (ole_refl O)].
    eapply (ole_trans O); [apply (olt_le O); exact E|]. apply (fle_opp_nn L). apply (olt_le O). exact E.
  Qed.

  (** Points of two boxes are at most / at least as far apart as the boxes say. *)
  Lemma abs_box (a1 b1 a2 b2 x y : K) : fle a1 x -> fle x b1 -> fle a2 y -> fle y b2 ->
    fle (fsub a2 b1) (fabs (fsub x y)) /\ fle (fsub a1 b2) (fabs (fsub x y)).
  Proof.
    intros H1 H2 H3 H4. split.
    - rewrite fabs_sym. eapply (ole_trans O); [|apply fle_abs]. apply (fle_sub_sub L); assumption.
    - eapply (ole_trans O); [|apply fle_abs]. apply (fle_sub_sub L); assumption.
  Qed.
  Lemma abs_diam (a b x y : K) : fle a x -> fle x b -> fle a y -> fle y b -> fle (fabs (fsub x y)) (fsub b a).
  Proof.
    intros H1 H2 H3 H4. unfold fabs. destruct (flt (fsub x y) f0).
    - replace (fopp (fsub x y)) with (fsub y x) by ring. apply (fle_sub_sub L); assumption.
    - apply (fle_sub_sub L); assumption.
  Qed.

  Lemma dist2_nn d (x y : nat -> K) : fle f0 (dist2 d x y).
  Proof. apply (sum_nn L). intros. apply (fsq_nn L). Qed.

  Lemma distmax_nn d (x y : nat -> K) : fle f0 (distmax d x y).
  Proof.
    induction d as [|d IH]; cbn; [apply (ole_refl O)|]. eapply (ole_trans O); [exact IH|]. apply (fmax_l O).
  Qed.

  Lemma fmax_lub (x y z : K) : fle x z -> fle y z -> fle (fmax x y) z.
  Proof. unfold fmax. destruct (flt x y); auto. Qed.
  Lemma fmax_mono (x y x' y' : K) : fle x x' -> fle y y' -> fle (fmax x y) (fmax x' y').
  Proof.
    intros H1 H2. apply fmax_lub; (eapply (ole_trans O); [eassumption|]); [apply (fmax_l O)|apply (fmax_r O)].
  Qed.

  Lemma distmax_mono d (x y x' y' : nat -> K) :
    (forall j, j < d -> fle (fabs (fsub (x j) (y j))) (fabs (fsub (x' j) (y' j)))) ->
    fle (distmax d x y) (distmax d x' y').
  Proof.
    induction d as [|d IH]; intros H; cbn; [apply (ole_refl O)|].
    apply fmax_mono; [apply IH; intros; apply H; lia|apply H; lia].
  Qed.
  Lemma dist2_mono d (x y x' y' : nat -> K) :
    (forall j, j < d -> fle (fabs (fsub (x j) (y j))) (fabs (fsub (x' j) (y' j)))) ->
    fle (dist2 d x y) (dist2 d x' y').
  Proof. intros H. apply (sum_le L). intros j Hj. apply fabs_sq_le. apply H. exact Hj. Qed.

  Variables (d : nat) (t s : cluster K) (T1 T2 S1 S2 : nat -> K).
  Hypothesis Dt : c_dim t = d.
  Hypothesis Vt1 : aval (c_bmin t) d T1.
  Hypothesis Vt2 : aval (c_bmax t) d T2.
  Hypothesis Ht : forall j, j < d -> fle (T1 j) (T2 j).

  Lemma diam_2_val sq : getdiam_2 sq t = Ok (sq (dist2 d T2 T1)).
  Proof.
    unfold getdiam_2. rewrite Dt.
    match goal with |- rbind ?r _ = _ => assert (R : rok r (fun v => v = dist2 d T2 T1)) end.
    { eapply (rok_for (fun i v => v = sum i (fun j => fmul (fsub (T2 j) (T1 j)) (fsub (T2 j) (T1 j))))).
      - reflexivity.
      - intros i v Hi ->. rewrite (aval_get _ _ _ _ Vt2), (aval_get _ _ _ _ Vt1) by lia. reflexivity.
      - auto. }
    apply rok_inv in R as (v & -> & ->). reflexivity.
  Qed.

  Lemma diam_max_val : getdiam_max t = Ok (distmax d T2 T1).
  Proof.
    unfold getdiam_max. rewrite Dt.
    match goal with |- ?r = _ => assert (R : rok r (fun v => v = distmax d T2 T1)) end.
    { eapply (rok_for (fun i v => v = distmax i T2 T1)).
      - reflexivity.
      - intros i v Hi ->. rewrite (aval_get _ _ _ _ Vt2), (aval_get _ _ _ _ Vt1) by lia. cbn.
        rewrite (fabs_pos (fsub (T2 i) (T1 i))); [reflexivity|]. apply (proj1 (fle_sub L _ _)). apply Ht. lia.
      - auto. }
    apply rok_inv in R as (v & -> & ->). reflexivity.
  Qed.

  Lemma diam_bound x y j : j < d -> in_box d T1 T2 x -> in_box d T1 T2 y ->
    fle (fabs (fsub (x j) (y j))) (fabs (fsub (T2 j) (T1 j))).
  Proof.
    intros Hj Hx Hy. destruct (Hx j Hj), (Hy j Hj).
    rewrite (fabs_pos (fsub (T2 j) (T1 j))); [apply abs_diam; assumption|].
    apply (proj1 (fle_sub L _ _)). apply Ht. exact Hj.
  Qed.

  Hypothesis Ds : c_dim s = d.
  Hypothesis Vs1 : aval (c_bmin s) d S1.
  Hypothesis Vs2 : aval (c_bmax s) d S2.
  Hypothesis Hs : forall j, j < d -> fle (S1 j) (S2 j).

  (** Closest points. *)
  Definition near_t (j : nat) : K :=
    if flt (T2 j) (S1 j) then T2 j else if flt (S2 j) (T1 j) then T1 j else fmax (T1 j) (S1 j).
  Definition near_s (j : nat) : K :=
    if flt (T2 j) (S1 j) then S1 j else if flt (S2 j) (T1 j) then S2 j else fmax (T1 j) (S1 j).

  Lemma near_in : in_box d T1 T2 near_t /\ in_box d S1 S2 near_s.
  Proof.
    split; intros j Hj; unfold near_t, near_s; destruct (flt (T2 j) (S1 j)) eqn:E1.
    - split; [auto|apply (ole_refl O)].
    - destruct (flt (S2 j) (T1 j)) eqn:E2; [split; [apply (ole_refl O)|auto]|].
      split; [apply (fmax_l O)|apply fmax_lub; [auto|exact E1]].
    - split; [apply (ole_refl O)|auto].
    - destruct (flt (S2 j) (T1 j)) eqn:E2; [split; [auto|apply (ole_refl O)]|].
      split; [apply (fmax_r O)|apply fmax_lub; [exact E2|auto]].
  Qed.

  Lemma near_bound x y j : j < d -> in_box d T1 T2 x -> in_box d S1 S2 y ->
    fle (fabs (fsub (near_t j) (near_s j))) (fabs (fsub (x j) (y j))).
  Proof.
    intros Hj Hx Hy. destruct (Hx j Hj) as [A1 A2], (Hy j Hj) as [B1 B2].
    destruct (abs_box _ _ _ _ _ _ A1 A2 B1 B2) as [C1 C2]. unfold near_t, near_s.
    destruct (flt (T2 j) (S1 j)) eqn:E1.
    - rewrite fabs_sym, fabs_pos; [exact C1|]. apply (proj1 (fle_sub L _ _)). apply (olt_le O). exact E1.
    - destruct (flt (S2 j) (T1 j)) eqn:E2.
      + rewrite fabs_pos; [exact C2|]. apply (proj1 (fle_sub L _ _)). apply (olt_le O). exact E2.
      + replace (fsub (fmax (T1 j) (S1 j)) (fmax (T1 j) (S1 j))) with (@f0 K) by ring.
        rewrite fabs_pos; [apply fabs_nn|apply (ole_refl O)].
  Qed.

  Lemma dist_2_val sq : getdist_2 sq t s = Ok (sq (dist2 d near_t near_s)).
  Proof.
    unfold getdist_2. rewrite Dt, Ds, Nat.eqb_refl. cbn [rassert rbind].
    match goal with |- rbind ?r _ = _ => assert (R : rok r (fun v => v = dist2 d near_t near_s)) end.
    { eapply (rok_for (fun i v => v = dist2 i near_t near_s)).
      - reflexivity.
      - intros i v Hi ->. rewrite (aval_get _ _ _ _ Vt2), (aval_get _ _ _ _ Vs1) by lia. cbn [rbind].
        change (dist2 (S i) near_t near_s) with (fadd (dist2 i near_t near_s)
          (fmul (fsub (near_t i) (near_s i)) (fsub (near_t i) (near_s i)))).
        generalize (dist2 i near_t near_s) as A. intros A. unfold near_t, near_s.
        destruct (flt (T2 i) (S1 i)) eqn:E1; [cbn; ring|].
        rewrite (aval_get _ _ _ _ Vs2), (aval_get _ _ _ _ Vt1) by lia. cbn [rbind].
        destruct (flt (S2 i) (T1 i)) eqn:E2; [reflexivity|]. cbn. ring.
      - auto. }
    apply rok_inv in R as (v & -> & ->). reflexivity.
  Qed.

  Lemma dist_max_val : getdist_max t s = Ok (distmax d near_t near_s).
  Proof.
    unfold getdist_max. rewrite Dt, Ds, Nat.eqb_refl. cbn [rassert rbind].
    match goal with |- ?r = _ => assert (R : rok r (fun v => v = distmax d near_t near_s)) end.
    { eapply (rok_for (fun i v => v = distmax i near_t near_s)).
      - reflexivity.
      - intros i v Hi ->. rewrite (aval_get _ _ _ _ Vt2), (aval_get _ _ _ _ Vs1) by lia. cbn [rbind].
        cbn [distmax]. pose proof (distmax_nn i near_t near_s) as NN. revert NN.
        generalize (distmax i near_t near_s) as A. intros A NN. unfold near_t, near_s.
        destruct (flt (T2 i) (S1 i)) eqn:E1.
        { rewrite fabs_sym, fabs_pos; [reflexivity|]. apply (proj1 (fle_sub L _ _)). apply (olt_le O). exact E1. }
        rewrite (aval_get _ _ _ _ Vs2), (aval_get _ _ _ _ Vt1) by lia. cbn [rbind].
        destruct (flt (S2 i) (T1 i)) eqn:E2.
        { rewrite fabs_pos; [reflexivity|]. apply (proj1 (fle_sub L _ _)). apply (olt_le O). exact E2. }
        cbn. replace (fsub (fmax (T1 i) (S1 i)) (fmax (T1 i) (S1 i))) with (@f0 K) by ring.
        rewrite fabs_pos by apply (ole_refl O). unfold fmax. rewrite NN. reflexivity.
      - auto. }
    apply rok_inv in R as (v & -> & ->). reflexivity.
  Qed.
End Dist.
