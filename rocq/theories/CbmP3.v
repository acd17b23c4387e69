(** * Deletion, structure copies and construction of cluster bases *)
From Coq Require Import Arith Lia List Bool Permutation.
From Verif Require Import Fld Ord Prog Arr View Loop Spec Cluster ClusterSpec ClusterP Block Avector Amatrix AmatrixP AmatrixP2 RkP Hmatrix HmSpec HmP Clusterbasis CbSpec CbP CbP2 Cbmgr CbmSpec CbmP CbmP2.
Import ListNotations.

Section P.
Context {K : fops} {G : ofops}.
Implicit Types (m : mem K) (cb s : cbasis G) (D : nat -> Prop) (Ls : list mat).

(** ** Deletion *)
Fixpoint del_sons (l : list (cbasis G)) : prog K unit := match l with [] => Ret tt | s :: l' => del_clusterbasis s ;;; del_sons l' end.
Lemma del_eq t k kt kb V E l Z : del_clusterbasis (CB t k kt kb V E l Z : cbasis G) = (del_sons l ;;; uninit_amatrix V ;;; uninit_amatrix E : prog K unit).
Proof. reflexivity. Qed.
Lemma wp_del cb : forall D m Ls (Q : unit -> mem K -> Prop), lm D m (cbmats cb ++ Ls) ->
  (forall m', lm D m' Ls -> keeps (fun a => In (fst a) (map mblk (cbmats cb))) m m' -> Q tt m') ->
  wp TT TT (del_clusterbasis cb) m Q.
Proof.
  induction cb as [cb IH] using cb_rect'. intros D m Ls Q HL HQ. destruct cb as [t k kt kb V E l Z]. cbn [cb_son] in IH. rewrite del_eq.
  assert (HS : forall l' D' m0 Ls' (Q' : unit -> mem K -> Prop), incl l' l -> lm D' m0 (flat_map cbmats l' ++ Ls') ->
    (forall m', lm D' m' Ls' -> keeps (fun a => In (fst a) (map mblk (flat_map cbmats l'))) m0 m' -> Q' tt m') -> wp TT TT (del_sons l') m0 Q').
  { induction l' as [|s l' IHl]; intros D' m0 Ls' Q' Hi H0 HQ'; cbn [del_sons].
    - cbn. apply HQ'; [exact H0|apply keeps_refl].
    - apply wp_bind. cbn [flat_map] in H0. rewrite <- app_assoc in H0. apply (IH s (Hi s (or_introl eq_refl)) D' m0 (flat_map cbmats l' ++ Ls') _ H0).
      intros m1 H1 K1. apply (IHl D' m1 Ls'); [intros x Hx; apply Hi; right; exact Hx|exact H1|]. intros m2 H2 K2. apply HQ'; [exact H2|].
      cbn [flat_map]. eapply keeps_trans; (eapply keeps_mono; [|eassumption]); intros a; rewrite map_app, in_app_iff; auto. }
  apply wp_bind. cbn [cbmats app] in HL. apply (HS l D m (V :: E :: Ls)); [apply incl_refl| |].
  { eapply lm_perm; [|exact HL]. symmetry. eapply perm_trans; [symmetry; apply Permutation_middle|]. apply perm_skip. symmetry. apply Permutation_middle. }
  intros m1 H1 K1. apply wp_bind. eapply wp_uninit_lm; [exact H1|]. intros m2 H2 K2. eapply wp_uninit_lm; [exact H2|]. intros m3 H3 K3. apply HQ; [exact H3|].
  cbn [cbmats map In]. eapply keeps_trans; [eapply keeps_mono; [|exact K1]; intros a Ha; right; right; exact Ha|].
  eapply keeps_trans; (eapply keeps_mono; [|eassumption]); intros a; cbn; intros E'; auto.
Qed.

(** ** Copies of the structure *)
Lemma desc_inv cb c : cbdesc cb c -> c = cb \/ exists s, In s (cb_son cb) /\ cbdesc s c.
Proof. intros H. inversion H; subst; [left; reflexivity|right]. eexists; eauto. Qed.
Lemma wp_clonestructure cb : cbfull cb -> forall D m Ls (Q : cbasis G -> mem K -> Prop), lm D m Ls ->
  (forall cb' m', cshape cb cb' -> czero cb' -> lm D m' (cbmats cb' ++ Ls) -> (forall b, In b (map mblk (cbmats cb')) -> next m <= b) ->
     keeps (fun a => next m <= fst a) m m' -> Q cb' m') ->
  wp TT TT (clonestructure_clusterbasis cb) m Q.
Proof.
  induction cb as [cb IH] using cb_rect'. intros Hfull D m Ls Q HL HQ. destruct cb as [t k kt kb V E l Z]. cbn [clonestructure_clusterbasis]. destruct l as [|s0 l0].
  - eapply wp_new_leaf; [exact HL|]. intros V0 E0 m1 L1 B1 B2 _ _ _ K1. apply HQ.
    + constructor; [reflexivity|reflexivity|]. intros [|i] ? ? X; discriminate X.
    + intros c Hc. apply desc_inv in Hc as [->|(s & [] & _)]. reflexivity.
    + exact L1.
    + intros b [<-|[<-|[]]]; assumption.
    + exact K1.
  - remember (s0 :: l0) as l eqn:El. set (cb := CB t k kt kb V E l Z) in *. assert (Hln : l <> []) by (subst l; discriminate).
    rewrite El. rewrite <- El. apply wp_bind. unfold new_clusterbasis. eapply wp_new_leaf; [exact HL|]. intros V0 E0 m1 L1 B1 B2 E02 _ _ K1. cbn [cb_setsons].
    assert (HNX1 : next m <= next m1) by apply K1.
    wstep. { apply Nat.eqb_eq. apply (Hfull cb); [constructor|exact Hln]. }
    apply wp_bind.
    eapply (wp_pmap _ (fun l1 bs m2 => Forall2 (fun s s' => cshape s s' /\ czero s') l1 bs /\ lm D m2 (flat_map cbmats bs ++ V0 :: E0 :: Ls) /\
       (forall b, In b (map mblk (flat_map cbmats bs)) -> next m1 <= b) /\ keeps (fun a => next m1 <= fst a) m1 m2)).
    + split; [constructor|]. split; [exact L1|]. split; [intros b []|apply keeps_refl].
    + intros l1 s l2 bs m2 E1 (HF & HL2 & HB & HK). assert (Hin : In s l) by (rewrite E1; apply in_elt).
      assert (HNX2 : next m1 <= next m2) by apply HK.
      apply (IH s Hin) with (D := D) (Ls := flat_map cbmats bs ++ V0 :: E0 :: Ls).
      * intros c Hc. apply Hfull. eapply cbdesc_son; eassumption.
      * exact HL2.
      * intros s' m3 C1 C2 L3 B3 K3. split; [|split; [|split]].
        -- apply pmap_length_inv; [exact HF|]. auto.
        -- eapply lm_perm; [|exact L3]. rewrite flat_map_app. cbn [flat_map]. rewrite app_nil_r, <- app_assoc. apply Permutation_app_swap_app.
        -- intros b Hb. rewrite flat_map_app, map_app in Hb. apply in_app_or in Hb as [Hb|Hb]; [apply HB, Hb|]. cbn [flat_map] in Hb. rewrite app_nil_r in Hb. specialize (B3 b Hb). lia.
        -- eapply keeps_trans; [exact HK|]. eapply keeps_mono; [|exact K3]. cbv beta; intros a Ha; lia.
    + intros l' m2 (HF & L2 & B3 & K2). assert (HNX2 : next m1 <= next m2) by apply K2. unfold cb_setsons. rewrite update_eq.
      assert (Hlen : length l' = length l) by (apply Forall2_nth in HF; apply HF).
      assert (Hl' : l' <> []) by (intros ->; destruct l; [congruence|discriminate]).
      replace (match l' with [] => CB t 0 (0 + csz t) (0 + csz t) V0 E0 l' None | _ :: _ => CB t 0 (0 + nsum (length l') (at_ cb_ktree l')) (0 + list_max (map cb_kbranch l')) V0 E0 l' None end)
        with (CB t 0 (0 + nsum (length l') (at_ cb_ktree l')) (0 + list_max (map cb_kbranch l')) V0 E0 l' None) by (destruct l'; [congruence|reflexivity]).
      cbn [wp]. apply HQ.
      * constructor; [reflexivity|exact Hlen|]. intros i s s' Hs Hs'. apply Forall2_nth in HF as (_ & F). apply (F i s s' Hs Hs').
      * intros c Hc. apply desc_inv in Hc as [->|(s & Hs & Hc)]; [reflexivity|]. destruct (Forall2_in_r _ _ _ _ HF Hs) as (s1 & _ & _ & F). apply F, Hc.
      * eapply lm_perm; [|exact L2]. cbn [cbmats app]. eapply perm_trans; [symmetry; apply Permutation_middle|]. apply perm_skip. symmetry. apply Permutation_middle.
      * cbn [cbmats map]. intros b [<-|[<-|Hb]]; [exact B1|exact B2|]. specialize (B3 b Hb). lia.
      * eapply keeps_trans; [exact K1|]. eapply keeps_mono; [|exact K2]. cbv beta; intros a Ha; lia.
Qed.

(** ** Construction *)
Definition build_sons (path : list nat) : nat -> list (cluster G) -> prog K (list (cbasis G)) :=
  fix go i l := match l with [] => Ret [] | s :: l' => s1 <- build_from_cluster (i :: path) s ;; r <- go (S i) l' ;; Ret (s1 :: r) end.
Lemma build_eq path (c : cluster G) : build_from_cluster path c = (cb <- new_clusterbasis (CP path c) ;; l' <- build_sons path 0 (c_sons c) ;; resize_clusterbasis (cb_setsons cb l') 0 : prog K (cbasis G)).
Proof. destruct c. reflexivity. Qed.

Lemma tiles_off (l : list (cluster G)) : forall off size i c, tiles off size l -> nth_error l i = Some c -> c_off c = off + nsum i (at_ c_size l).
Proof.
  induction l as [|x l IH]; intros off size [|i] c H Hc; cbn in Hc; try discriminate; destruct H as (H1 & H2 & H3).
  - injection Hc as <-. cbn. lia.
  - rewrite (IH _ _ _ _ H3 Hc), nsum_head. unfold at_ at 2. cbn [map nth]. rewrite <- Nat.add_assoc. reflexivity.
Qed.
Lemma tiles_sum (l : list (cluster G)) : forall off size, tiles off size l -> size = nsum (length l) (at_ c_size l).
Proof.
  induction l as [|x l IH]; intros off size H; [exact H|]. destruct H as (H1 & H2 & H3). apply IH in H3. cbn [length]. rewrite nsum_head. unfold at_ at 1. cbn [map nth].
  change (fun i => at_ c_size (x :: l) (S i)) with (at_ c_size l). lia.
Qed.

(** A basis with the sons' clusters covers the ranges of indices of its clusters. *)
Lemma part_son (t s : cluster G) : partition_tree t -> In s (c_sons t) -> partition_tree s.
Proof.
  intros H Hs x Hx. apply H. destruct t as [a b l c d e f g]. cbn [nodes]. right. apply in_flat_map. exists s. auto.
Qed.
Lemma nodes_root (t : cluster G) : In t (nodes t). Proof. destruct t. left. reflexivity. Qed.
Lemma cp_son_ok (t t' : cptr G) i : cp_son t i = Ok t' -> nth_error (c_sons (cp_c t)) i = Some (cp_c t').
Proof. unfold cp_son. destruct (nth_error _ i); intros [= <-]. reflexivity. Qed.
Lemma part_placed cb : cbok cb -> cbfull cb -> partition_tree (cp_c (cb_t cb)) -> cbplaced cb.
Proof.
  induction cb as [cb IH] using cb_rect'. intros Hok Hf Hp o r c Hc. apply in_nodes in Hc as [(-> & -> & ->)|(i & s & o' & r' & Hs & Hc & -> & ->)]; [lia|].
  pose proof Hs as [Hi Hin]%nth_in. destruct (cbok_son _ _ Hok Hin) as (Hok' & _). pose proof (cbok_tson _ _ _ Hok Hs) as Ht. apply cp_son_ok in Ht.
  assert (Hne : cb_son cb <> []) by (intros E; rewrite E in Hin; contradiction).
  destruct (Hp _ (nodes_root _)) as (_ & HT). assert (Hcs : c_sons (cp_c (cb_t cb)) <> []) by (intros E; rewrite E in Ht; destruct i; discriminate).
  specialize (HT Hcs). assert (HF' : cbfull s) by (intros x Hx; apply Hf; eapply cbdesc_son; eassumption).
  pose proof (part_son _ _ Hp (proj2 (nth_in _ _ _ Ht))) as Hps.
  rewrite (IH s Hin Hok' HF' Hps o' r' c Hc).
  unfold cb_off at 1. rewrite (tiles_off _ _ _ _ _ HT Ht). unfold cb_off. rewrite <- Nat.add_assoc. f_equal. f_equal.
  apply nsum_ext. intros j Hj. destruct (nth_ex (cb_son cb) j ltac:(lia)) as [sj Hsj]. pose proof (cbok_tson _ _ _ Hok Hsj) as Htj. apply cp_son_ok in Htj.
  rewrite (at_nth _ _ _ _ Hsj), (at_nth _ _ _ _ Htj). reflexivity.
Qed.

Lemma setE_proj s E : cb_t (cb_setE s E) = cb_t s /\ cb_k (cb_setE s E) = cb_k s /\ cb_son (cb_setE s E) = cb_son s /\ cb_ktree (cb_setE s E) = cb_ktree s /\ cb_kbranch (cb_setE s E) = cb_kbranch s.
Proof. destruct s. auto 6. Qed.
Lemma cbok_setE s E : cbok s -> cbok (cb_setE s E).
Proof. intros H. destruct H; cbn; [constructor; assumption|]. eapply cbok_node; eassumption. Qed.
Lemma czero_setE s E : czero s -> czero (cb_setE s E).
Proof.
  intros H c Hc. apply desc_inv in Hc as [->|(x & Hx & Hc)].
  - destruct (setE_proj s E) as (_ & -> & _). apply H. constructor.
  - destruct (setE_proj s E) as (_ & _ & X & _). rewrite X in Hx. apply H. eapply cbdesc_son; eassumption.
Qed.
Lemma cover_setE s E t : cbcover t s -> cbcover t (cb_setE s E).
Proof.
  intros H. inversion H as [cb H1 H2]; subst. destruct (setE_proj s E) as (X1 & _ & X3 & _). rewrite <- X1. constructor; rewrite X1, X3; assumption.
Qed.

Lemma wp_build (c : cluster G) : forall path D m Ls (Q : cbasis G -> mem K -> Prop), partition_tree c -> lm D m Ls ->
  (forall cb' m', cbok cb' -> czero cb' -> cbcover (CP path c) cb' -> cb_t cb' = CP path c -> lm D m' (cbmats cb' ++ Ls) -> (forall b, In b (map mblk (cbmats cb')) -> next m <= b) ->
     keeps (fun a => next m <= fst a) m m' -> Q cb' m') ->
  wp TT TT (build_from_cluster path c) m Q.
Proof.
  induction c as [size off l dim b1 b2 ds typ IH] using cluster_rect'. rewrite Forall_forall in IH. intros path D m Ls Q Hp HL HQ. rewrite build_eq. cbn [c_sons].
  set (c := Cl size off l dim b1 b2 ds typ) in *.
  apply wp_bind. unfold new_clusterbasis. eapply wp_new_leaf; [exact HL|]. intros V0 E0 m1 L1 B1 B2 E02 _ _ K1. cbn [cb_setsons].
  assert (HNX1 : next m <= next m1) by apply K1.
  set (I := fun (i : nat) (s : cluster G) (b : cbasis G) => cbok b /\ czero b /\ cbcover (CP (i :: path) s) b /\ cb_t b = CP (i :: path) s).
  assert (HS : forall (l2 l1 : list (cluster G)) (bs : list (cbasis G)) m2 (Q' : list (cbasis G) -> mem K -> Prop), l = l1 ++ l2 -> lm D m2 (flat_map cbmats bs ++ V0 :: E0 :: Ls) ->
    (forall bs' m', length bs' = length l2 -> (forall i (w : cluster G) b, nth_error l2 i = Some w -> nth_error bs' i = Some b -> I (length l1 + i) w b) -> lm D m' (flat_map cbmats (bs ++ bs') ++ V0 :: E0 :: Ls) ->
       (forall b, In b (map mblk (flat_map cbmats bs')) -> next m2 <= b) -> keeps (fun a => next m2 <= fst a) m2 m' -> Q' bs' m') ->
    wp TT TT (build_sons path (length l1) l2) m2 Q').
  { induction l2 as [|s l2 IHl]; intros l1 bs m2 Q' El H2 HQ'; cbn [build_sons].
    - cbn. apply HQ'; [reflexivity|intros [|]; discriminate|rewrite app_nil_r; exact H2|intros b []|apply keeps_refl].
    - assert (Hin : In s l) by (rewrite El; apply in_elt). apply wp_bind. apply (IH s Hin (length l1 :: path) D m2 (flat_map cbmats bs ++ V0 :: E0 :: Ls)).
      + apply (part_son c s Hp Hin).
      + exact H2.
      + intros b m3 O1 O2 O3 O4 L3 B3 K3. assert (HNX3 : next m2 <= next m3) by apply K3. apply wp_bind.
        specialize (IHl (l1 ++ [s]) (bs ++ [b]) m3). rewrite app_length in IHl. cbn [length] in IHl. rewrite Nat.add_1_r in IHl. apply IHl.
        * rewrite <- app_assoc. exact El.
        * eapply lm_perm; [|exact L3]. rewrite flat_map_app. cbn [flat_map]. rewrite app_nil_r, <- app_assoc. apply Permutation_app_swap_app.
        * intros bs' m4 N4 I4 L4 B4 K4. cbn [wp]. apply HQ'.
          -- cbn. lia.
          -- intros [|i] s1 b' Hs1 Hb'; cbn in Hs1, Hb'; [injection Hs1 as <-; injection Hb' as <-; rewrite Nat.add_0_r; unfold I; auto|].
             specialize (I4 i s1 b' Hs1 Hb'). replace (length l1 + S i) with (S (length l1) + i) by lia. exact I4.
          -- rewrite <- app_assoc in L4. exact L4.
          -- cbn [flat_map]. intros b' Hb'. rewrite map_app in Hb'. apply in_app_or in Hb' as [Hb'|Hb']; [apply B3, Hb'|]. specialize (B4 b' Hb'). lia.
          -- eapply keeps_trans; [exact K3|]. eapply keeps_mono; [|exact K4]. cbv beta; intros a Ha; lia. }
  apply wp_bind. apply (HS l [] [] m1 _ eq_refl L1). intros l' m2 N2 I2 L2 B3 K2. cbn [length app] in *. assert (HNX2 : next m1 <= next m2) by apply K2.
  unfold resize_clusterbasis. eapply wp_setrank with (rest := Ls).
  { eapply lm_perm; [|exact L2]. cbn [cbmats app]. eapply perm_trans; [symmetry; apply Permutation_middle|]. apply perm_skip. symmetry. apply Permutation_middle. }
  intros V3 E3 l3 m3 cb' HVl HV HS3 E31 E32 L3 B4 K3. assert (HNX3 : next m2 <= next m3) by apply K3.
  assert (Hlen3 : length l3 = length l') by (apply Forall2_nth in HS3; apply HS3).
  assert (I3 : forall i (w : cluster G) b, nth_error l i = Some w -> nth_error l3 i = Some b -> I i w b /\ mrows (cb_E b) = cb_k b /\ mcols (cb_E b) = 0).
  { intros i s b Hs Hb. destruct (Forall2_nth_r _ _ _ _ _ HS3 Hb) as (b0 & Hb0 & Eb & D1 & D2). destruct (I2 i s b0 Hs Hb0) as (X1 & X2 & X3 & X4). cbn [Nat.add] in *.
    destruct (setE_proj b0 (cb_E b)) as (Y1 & Y2 & _). rewrite <- Eb in Y1, Y2. split; [|split; congruence]. rewrite Eb. split; [apply cbok_setE, X1|]. split; [apply czero_setE, X2|]. split; [apply cover_setE, X3|]. rewrite <- Eb. congruence. }
  unfold cb'. rewrite update_eq.
  assert (BF : forall b, In b (map mblk (V3 :: E3 :: flat_map cbmats l3)) -> next m <= b).
  { intros b Hb. apply B4 in Hb as [Hb|Hb]; [|lia]. cbn [cbmats map] in Hb. destruct Hb as [<-|[<-|Hb]]; [exact B1|exact B2|]. specialize (B3 b Hb). lia. }
  assert (KA : keeps (fun a => next m <= fst a) m m3).
  { eapply keeps_trans; [exact K1|]. eapply keeps_trans; [eapply keeps_mono; [|exact K2]; cbv beta; intros a Ha; lia|]. eapply keeps_mono; [|exact K3]. intros a [Ha|Ha]; [|lia].
    unfold rkblks in Ha. destruct l' as [|x0 l'']; [destruct Ha as [<-|[<-|[]]]; assumption|]. destruct Ha as [<-|Ha]; [exact B2|]. apply in_map_iff in Ha as (s1 & <- & Hin1).
    assert (next m1 <= mblk (cb_E s1)); [|lia]. apply B3. apply in_map. apply in_flat_map. exists s1. split; [exact Hin1|]. rewrite cbmats_E. right. left. reflexivity. }
  assert (Hcov : forall kt kb, cbcover (CP path c) (CB (CP path c) 0 kt kb V3 E3 l3 None)).
  { intros kt kb. apply (cbcover_intro (CB (CP path c) 0 kt kb V3 E3 l3 None)); cbn [cb_son cb_t]; [unfold cp_sons; cbn; lia|].
    intros i b Hb. destruct (nth_ex l i) as [s Hs]; [apply nth_in in Hb; lia|]. exists (CP (i :: path) s). unfold cp_son. cbn [cp_c c c_sons cp_path]. rewrite Hs. split; [reflexivity|]. apply (I3 i s b Hs Hb). }
  assert (Hzero : forall kt kb, czero (CB (CP path c) 0 kt kb V3 E3 l3 None)).
  { intros kt kb x Hx. apply desc_inv in Hx as [->|(b & Hb & Hx)]; [reflexivity|]. cbn [cb_son] in Hb. apply In_nth_error in Hb as (i & Hb). destruct (nth_ex l i) as [s Hs]; [apply nth_in in Hb; lia|].
    destruct (I3 i s b Hs Hb) as ((_ & Z & _) & _). apply Z, Hx. }
  destruct l3 as [|x3 l3'].
  - apply HQ; auto.
    + assert (E' : l' = []) by (destruct l'; [reflexivity|discriminate Hlen3]). destruct (HVl E') as (X1 & X2). constructor; assumption.
  - remember (x3 :: l3') as l3 eqn:El3. apply HQ; auto.
    + apply cbok_node.
      * subst l3. discriminate.
      * intros b Hb. apply In_nth_error in Hb as (i & Hb). destruct (nth_ex l i) as [s Hs]; [apply nth_in in Hb; lia|]. destruct (I3 i s b Hs Hb) as ((O1 & _) & O2 & O3). auto.
      * intros i b Hb. destruct (nth_ex l i) as [s Hs]; [apply nth_in in Hb; lia|]. destruct (I3 i s b Hs Hb) as ((_ & _ & _ & O4) & _). unfold cp_son. cbn [cp_c c c_sons cp_path]. rewrite Hs, O4. reflexivity.
      * destruct (Hp c (nodes_root c)) as (_ & HT). cbn [c c_sons c_off c_size] in HT. rewrite <- (Nat.add_0_r (csz _)). unfold csz. cbn [cp_c c c_size].
        rewrite (tiles_sum _ _ _ (HT ltac:(intros ->; destruct l'; [discriminate Hlen3 || (subst l3; discriminate Hlen3)|discriminate]))), Nat.add_0_r. replace (length l) with (length l3) by lia.
        apply nsum_ext. intros i Hi. destruct (nth_ex l3 i Hi) as [b Hb]. destruct (nth_ex l i) as [s Hs]; [lia|]. rewrite (at_nth _ _ _ _ Hb), (at_nth _ _ _ _ Hs).
        destruct (I3 i s b Hs Hb) as ((_ & _ & _ & O4) & _). unfold cb_size. rewrite O4. reflexivity.
      * reflexivity.
      * reflexivity.
Qed.
End P.
