(** * Properties C34 and C46: copies, construction and storage of cluster bases *)
From Coq Require Import Arith Lia List Bool ZArith.
From Verif Require Import Fld Inst Ord OrdInst Prog Arr View Spec Loop Cluster ClusterSpec Block Avector Amatrix AmatrixP2 Hmatrix HmSpec HmP
  Clusterbasis CbSpec CbP CbP9 Cbmgr CbmSpec CbmP CbmP2 CbmP3 PropCb.
Import ListNotations.

Section C34.
Context {K : fops} {G : ofops}.
Implicit Types (m : mem K) (cb c : cbasis G).

(** ** C34.  A clone has the same clusters, ranks, leaf and transfer matrices ([ceq]) and therefore
    represents the same basis.  Nothing else changes, and the clone owns all storage allocated. *)
Theorem C34_clone : forall cb m,
  cbok cb -> cbfull cb -> noweight cb -> cbinit m cb ->
  ends (clone_clusterbasis cb) m (fun cb' m' =>
    ceq m m' cb cb' /\ cbok cb' /\ cbinit m' cb' /\ cb_k cb' = cb_k cb /\
    (forall p q, p < cb_size cb -> q < cb_k cb -> cbmat m' cb' p q = cbmat m cb p q) /\
    keeps (fun a => next m <= fst a) m m' /\ lm (fun b => next m <= b) m' (cbmats cb')).
Proof.
  intros cb m H1 H2 H3 H4. apply wp_ends. eapply (wp_clone cb H1 H2 H3); [exact H4|apply lm_fresh|]. intros cb' m' C Hk HL _ HK. rewrite app_nil_r in HL.
  split; [exact C|]. split; [eapply ceq_ok; eassumption|]. split; [eapply ceq_init; eassumption|]. split; [exact Hk|]. split; [|auto]. intros p q Hp Hq. eapply ceq_mat; eassumption.
Qed.
(** A structure copy has the same clusters, and all ranks are zero. *)
Theorem C34_clonestructure : forall cb m,
  cbfull cb ->
  ends (clonestructure_clusterbasis cb) m (fun cb' m' =>
    cshape cb cb' /\ czero cb' /\ keeps (fun a => next m <= fst a) m m' /\ lm (fun b => next m <= b) m' (cbmats cb')).
Proof.
  intros cb m H1. apply wp_ends. eapply (wp_clonestructure cb H1); [apply lm_fresh|]. intros cb' m' C1 C2 HL _ HK. rewrite app_nil_r in HL. auto.
Qed.

(** ** C46.  A basis built from a partition of the indices has rank zero, covers the whole cluster
    tree, and is consistent. *)
Theorem C46_build : forall (t : cptr G) m,
  partition_tree (cp_c t) ->
  ends (build_from_cluster_clusterbasis t) m (fun cb m' =>
    cb_t cb = t /\ cbcover t cb /\ czero cb /\ cbok cb /\ cbplaced cb /\
    keeps (fun a => next m <= fst a) m m' /\ lm (fun b => next m <= b) m' (cbmats cb)).
Proof.
  intros [path c] m H. apply wp_ends. unfold build_from_cluster_clusterbasis. cbn [cp_path cp_c] in *. eapply wp_build; [exact H|apply lm_fresh|].
  intros cb m' H1 H2 H3 H4 HL _ HK. rewrite app_nil_r in HL. split; [exact H4|]. split; [exact H3|]. split; [exact H2|]. split; [exact H1|]. split; [|auto].
  apply part_placed; [exact H1| |rewrite H4; exact H].
  assert (HF : forall (t' : cptr G) (b : cbasis G), cbcover t' b -> forall x : cbasis G, cbdesc b x -> length (cb_son x) = cp_sons (cb_t x)).
  { intros t' b Hc x Hx. revert t' Hc. induction Hx as [b|b s x Hs Hx IH]; intros t' Hc; inversion Hc as [b' N1 N2]; subst; [exact N1|].
    apply In_nth_error in Hs as (i & Hi). destruct (N2 i s Hi) as (t1 & _ & Hc1). apply (IH t1 Hc1). }
  intros x Hx _. symmetry. eapply HF; eassumption.
Qed.
(** Changing the rank adjusts the leaf matrix or the transfer matrices of the sons and leaves the
    sons unchanged otherwise.  All storage is still owned by the basis. *)
Theorem C46_setrank : forall cb k m (D : nat -> Prop) Ls,
  cbok cb -> lm D m (cbmats cb ++ Ls) ->
  ends (setrank_clusterbasis cb k) m (fun cb' m' =>
    cb_t cb' = cb_t cb /\ cb_k cb' = k /\ cbok cb' /\ mrows (cb_E cb') = k /\ mcols (cb_E cb') = mcols (cb_E cb) /\
    length (cb_son cb') = length (cb_son cb) /\
    (forall i s s', nth_error (cb_son cb) i = Some s -> nth_error (cb_son cb') i = Some s' ->
       s' = cb_setE s (cb_E s') /\ forall a, incb s a -> get m' a = get m a) /\
    lm D m' (cbmats cb' ++ Ls) /\ keeps (fun a => In (fst a) (map mblk (cbmats cb)) \/ next m <= fst a) m m').
Proof.
  intros [t k0 kt kb V E l Z] k m D Ls Hok HL. apply wp_ends. eapply wp_setrank; [exact HL|].
  intros V' E' l' m' cb' HV1 HV2 HS E1 E2 HL' HB HK. unfold cb'. rewrite update_eq.
  assert (Hlen : length l' = length l) by (apply Forall2_nth in HS; apply HS).
  assert (HI : forall i s s', nth_error l i = Some s -> nth_error l' i = Some s' -> s' = cb_setE s (cb_E s') /\ forall a, incb s a -> get m' a = get m a).
  { intros i s s' Hs Hs'. apply Forall2_nth in HS as (_ & F). destruct (F i s s' Hs Hs') as (X & _). split; [exact X|]. intros a Ha. apply (proj2 HK). intros Hb.
    pose proof Hs as [_ Hin]%nth_in. assert (HA : In (fst a) (map mblk (flat_map cbmats l))). { apply incb_cbmats in Ha. apply in_map_iff in Ha as (A & <- & HA). apply in_map. apply in_flat_map. exists s. auto. }
    pose proof HL as HLm. destruct HL as (_ & HN & _). cbn [cbmats app map] in HN. inversion HN as [|? ? N1 N2]; subst. inversion N2 as [|? ? N3 N4]; subst. rewrite map_app in N3, N4.
    destruct Hb as [Hb|Hb].
    - unfold rkblks in Hb. destruct l as [|x l0]; [destruct i; discriminate Hs|]. remember (x :: l0) as l eqn:El. destruct Hb as [Hb|Hb].
      + apply N3. apply in_or_app. left. rewrite Hb. exact HA.
      + apply in_map_iff in Hb as (s1 & Hb & Hin1). apply (E_not_in l (NoDup_appl _ _ N4) s s1 a Hin Hin1 Ha). symmetry. exact Hb.
    - assert (fst a < next m); [|lia]. apply (lm_blk D m _ _ HLm). cbn. right. right. apply in_map_iff in HA as (A & <- & HA). apply in_map, in_or_app. left. exact HA. }
  assert (HK' : keeps (fun a => In (fst a) (map mblk (cbmats (CB t k0 kt kb V E l Z))) \/ next m <= fst a) m m').
  { eapply keeps_mono; [|exact HK]. intros a [Ha|Ha]; [left|right; exact Ha]. unfold rkblks in Ha. cbn [cbmats map]. destruct l as [|x l0]; [exact (or_intror (or_introl eq_refl)) || (cbn in *; tauto)|].
    remember (x :: l0) as l eqn:El. destruct Ha as [Ha|Ha]; [right; left; exact Ha|right; right]. apply in_map_iff in Ha as (s1 & <- & Hin1). apply in_map. apply in_flat_map. exists s1. split; [exact Hin1|]. rewrite cbmats_E. right. left. reflexivity. }
  destruct l as [|x l0].
  - inversion HS; subst l'. cbn [cb_t cb_k cb_E cb_son]. destruct (HV1 eq_refl) as (X1 & X2).
    split; [reflexivity|]. split; [reflexivity|]. split; [constructor; assumption|]. split; [exact E1|]. split; [exact E2|]. split; [reflexivity|]. split; [exact HI|]. split; [exact HL'|exact HK'].
  - remember (x :: l0) as l eqn:El. destruct l' as [|x' l0']; [subst l; discriminate|]. remember (x' :: l0') as l' eqn:El'. cbn [cb_t cb_k cb_E cb_son].
    inversion Hok as [|? ? ? ? ? ? ? ? N1 N2 N3 N4 N5 N6]; [congruence|].
    split; [reflexivity|]. split; [reflexivity|]. split.
    { assert (EM : forall f : cbasis G -> nat, (forall s E0, f (cb_setE s E0) = f s) -> map f l' = map f l).
      { intros f Hf. symmetry. apply at_Forall2. apply Forall2_nth. split; [exact Hlen|]. intros i s s' Hs Hs'. destruct (HI i s s' Hs Hs') as (-> & _). rewrite Hf. reflexivity. }
      apply cbok_node.
      - subst l'. discriminate.
      - intros s' Hs'. destruct (Forall2_in_r _ _ _ _ HS Hs') as (s & Hs & ES & D1 & D2). destruct (N2 s Hs) as (O1 & _). rewrite ES at 1. split; [apply cbok_setE, O1|]. split; [|exact D2]. rewrite D1, ES. symmetry. apply setE_proj.
      - intros i s' Hs'. destruct (Forall2_nth_r _ _ _ _ _ HS Hs') as (s & Hs & ES & _). rewrite (N3 i s Hs), ES. f_equal. symmetry. apply setE_proj.
      - unfold at_. rewrite (EM cb_size), Hlen; [exact N4|]. intros s E9. unfold cb_size. f_equal. apply setE_proj.
      - reflexivity.
      - reflexivity. }
    split; [exact E1|]. split; [exact E2|]. split; [exact Hlen|]. split; [exact HI|]. split; [exact HL'|exact HK'].
Qed.
(** Deleting a basis releases all storage of its leaf and transfer matrices and changes nothing else. *)
Theorem C46_delete : forall cb m (D : nat -> Prop) Ls,
  lm D m (cbmats cb ++ Ls) ->
  ends (del_clusterbasis cb) m (fun _ m' =>
    lm D m' Ls /\ (forall A a, In A (cbmats cb) -> D (mblk A) -> fst a = mblk A -> get m' a = Free) /\
    keeps (fun a => In (fst a) (map mblk (cbmats cb))) m m').
Proof.
  intros cb m D Ls H. apply wp_ends. eapply wp_del; [exact H|]. intros m' HL HK. split; [exact HL|]. split; [|exact HK].
  intros A a HA HD Ea. apply HL; [rewrite Ea; exact HD|]. destruct H as (_ & HN & _). rewrite map_app in HN. apply (NoDup_appx _ _ _ HN). rewrite Ea. apply in_map, HA.
Qed.
(** Cloning and deleting the clone restores the memory. *)
Theorem C46_clone_delete : forall cb m,
  cbok cb -> cbfull cb -> noweight cb -> cbinit m cb ->
  ends (bind (clone_clusterbasis cb) del_clusterbasis) m (fun _ m' => forall a, get m' a = get m a).
Proof.
  intros cb m H1 H2 H3 H4. apply wp_ends. apply wp_bind. eapply (wp_clone cb H1 H2 H3); [exact H4|apply lm_fresh|]. intros cb' m1 C Hk HL HB HK.
  eapply wp_del; [exact HL|]. intros m2 HL2 HK2 a. destruct (Nat.lt_ge_cases (fst a) (next m)) as [Hlt|Hge].
  - rewrite (proj2 HK2), (proj2 HK); [reflexivity|cbv beta; lia|]. intros Ha. apply HB in Ha. lia.
  - rewrite (get_next m a Hge). apply HL2; [exact Hge|intros []].
Qed.
End C34.

(** ** Example *)
Lemma xc_full : cbfull xc.
Proof.
  intros c Hc Hn. apply desc_inv in Hc as [->|(s & Hs & Hc)]; [reflexivity|]. destruct Hs as [<-|[<-|[]]]; apply desc_inv in Hc as [->|(s & Hs & Hc)]; try reflexivity; try contradiction Hs; try (contradiction Hn; reflexivity).
  destruct Hs as [<-|[<-|[]]]; apply desc_inv in Hc as [->|(s & [] & Hc)]; contradiction Hn; reflexivity.
Qed.
Lemma xc_noweight : noweight xc.
Proof.
  intros c Hc Hn. apply desc_inv in Hc as [->|(s & Hs & Hc)]; [reflexivity|]. destruct Hs as [<-|[<-|[]]]; apply desc_inv in Hc as [->|(s & Hs & Hc)]; try reflexivity; try contradiction Hs.
  destruct Hs as [<-|[<-|[]]]; apply desc_inv in Hc as [->|(s & [] & Hc)]; reflexivity.
Qed.
Lemma xc_init : cbinit (mem_of xcm) xc.
Proof. intros a H. apply xc_in in H as (A & H & Ha). cbn in H. decompose [or] H; try contradiction; subst A; eapply mat_init; try exact Ha; apply mval_of; reflexivity. Qed.
Example C34_hyps : cbok xc /\ cbfull xc /\ noweight xc /\ cbinit (mem_of xcm) xc /\ partition_tree xcr /\ cbmat (mem_of xcm) xc 1 0 <> f0.
Proof.
  split; [exact xc_ok|]. split; [exact xc_full|]. split; [exact xc_noweight|]. split; [exact xc_init|]. split.
  - intros s Hs. cbn in Hs. decompose [or] Hs; try contradiction; subst s; cbn; (split; [lia|]); intros Hn; try (contradiction Hn; reflexivity); lia.
  - vm_compute. intros H. discriminate H.
Qed.
Example C46_hyps : lm (fun b => In b (map mblk (cbmats xc)) \/ next (mem_of xcm) <= b) (mem_of xcm) (cbmats xc ++ []).
Proof.
  rewrite app_nil_r. apply (lm_start (mem_of xcm) (cbmats xc)).
  - apply Forall_forall. intros A HA. cbn in HA. decompose [or] HA; try contradiction; subst A;
      (split; [reflexivity|]; split; [apply Nat.ltb_lt; vm_compute; reflexivity|]; split; [unfold mwf; cbn; lia|]; eapply mval_malloc; apply mval_of; reflexivity).
  - cbn. repeat (apply NoDup_cons; [cbn; lia|]). apply NoDup_nil.
Qed.

(** A clone of a basis with a weight matrix [Z] at a cluster with sons accesses the array of sons
    beyond its end (clusterbasis.c:301 uses the loop variable after the loop). *)
Definition xcZ : cbasis QcO := CB (CP [] xcr) 1 8 5 xVr xEr [xc0; xc1] (Some (Mat 10 0 1 1 1 true)).
Theorem C34_clone_weight_refuted : cbok xcZ /\ cbfull xcZ /\ cbinit (mem_of xcm) xcZ /\ cb_Z xcZ <> None /\
  fails (clone_clusterbasis xcZ) (mem_of xcm) EBounds.
Proof.
  split. { pose proof xc_ok as H. inversion H; subst. apply cbok_node; assumption. }
  split. { intros c Hc Hn. apply desc_inv in Hc as [->|(s & Hs & Hc)]; [reflexivity|]. apply (xc_full c); [|exact Hn]. eapply cbdesc_son; [exact Hs|exact Hc]. }
  split. { intros a Ha. apply xc_init. inversion Ha as [|? ? ? Hs Hi|? ? ? Hs Hi]; subst; [eapply incb_E; [exact Hs|exact Hi]|eapply incb_son; [exact Hs|exact Hi]]. }
  split; [discriminate|]. vm_compute. reflexivity.
Qed.
(** The structure copy of a leaf has no consistent dimensions: [ktree] and [kbranch] are not set
    (clusterbasis.c:329-330 skips [update_clusterbasis]), so that [ktree] is zero although a coefficient
    vector contains the entries for all leaves. *)
Lemma cbok_ktree_size {G : ofops} (cb : cbasis G) : cbok cb -> cb_size cb <= cb_ktree cb.
Proof.
  induction cb as [cb IH] using cb_rect'. intros H. rewrite (cbok_ktree cb H). unfold cb_leaf. destruct (cb_son cb) as [|s0 l0] eqn:E; [lia|].
  rewrite (cbok_size cb H) by congruence. rewrite <- E. enough (nsum (length (cb_son cb)) (at_ cb_size (cb_son cb)) <= nsum (length (cb_son cb)) (at_ cb_ktree (cb_son cb))) by lia.
  assert (HL : forall n, n <= length (cb_son cb) -> nsum n (at_ cb_size (cb_son cb)) <= nsum n (at_ cb_ktree (cb_son cb))); [|apply HL; lia].
  induction n as [|n IHn]; intros Hn; cbn [nsum]; [lia|]. destruct (nth_ex (cb_son cb) n) as [s Hs]; [lia|]. rewrite !(at_nth _ _ _ _ Hs).
  specialize (IHn ltac:(lia)). pose proof Hs as [_ Hin]%nth_in. destruct (cbok_son _ _ H Hin) as (Hok & _). rewrite <- E in IH. specialize (IH s Hin Hok). lia.
Qed.
Theorem C34_clonestructure_refuted : cbok xc /\ cbfull xc /\ cbinit (mem_of xcm) xc /\
  exists cb' m', run (clonestructure_clusterbasis xc) (mem_of xcm) = Ok (cb', m') /\ cb_ktree cb' = 0 /\ cb_kbranch cb' = 0 /\ cb_size cb' = 3 /\ ~ cbok cb'.
Proof.
  split; [exact xc_ok|]. split; [exact xc_full|]. split; [exact xc_init|].
  assert (H : match run (clonestructure_clusterbasis xc) (mem_of xcm) with Ok (cb', _) => (cb_ktree cb', cb_kbranch cb', cb_size cb') = (0, 0, 3) | Err _ => False end) by (vm_compute; reflexivity).
  destruct (run (clonestructure_clusterbasis xc) (mem_of xcm)) as [[cb' m']|e]; [|contradiction]. injection H as H1 H2 H3. exists cb', m'.
  do 4 (split; [auto|]). intros Hok. apply cbok_ktree_size in Hok. lia.
Qed.
(** Deleting a basis does not release its weight matrices. *)
Theorem C46_delete_weight_refuted : exists m', run (del_clusterbasis xcZ) (mem_of xcm) = Ok (tt, m') /\
  lm (fun b => In b (map mblk (cbmats xcZ)) \/ next (mem_of xcm) <= b) (mem_of xcm) (cbmats xcZ ++ []) /\ get m' (ma (Mat 10 0 1 1 1 true) 0 0) <> Free.
Proof.
  destruct (run (del_clusterbasis xcZ) (mem_of xcm)) as [[[] m']|e] eqn:E; [|vm_compute in E; discriminate E]. exists m'. split; [reflexivity|]. split; [exact C46_hyps|].
  assert (H : match run (del_clusterbasis xcZ) (mem_of xcm) with Ok (_, m1) => get m1 (ma (Mat 10 0 1 1 1 true) 0 0) <> Free | Err _ => True end) by (vm_compute; discriminate).
  rewrite E in H. exact H.
Qed.

Print Assumptions C34_clone.
Print Assumptions C34_clonestructure.
Print Assumptions C34_clone_weight_refuted.
Print Assumptions C34_clonestructure_refuted.
Print Assumptions C46_build.
Print Assumptions C46_setrank.
Print Assumptions C46_delete.
Print Assumptions C46_clone_delete.
Print Assumptions C46_delete_weight_refuted.
