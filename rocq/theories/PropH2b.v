(** * Property C49: construction, copies and projection of H2-matrices *)
From Coq Require Import Arith Lia List Bool ZArith Permutation.
From Verif Require Import Fld Inst Ord OrdInst Prog Arr View Spec Loop Line Cluster ClusterSpec Block BlockSpec BlockP BlockP2 BlockP3 PropBlock Avector Amatrix AmatrixP AmatrixP2 Norm
  Rkmatrix RkSpec Hmatrix HmSpec HmP HmP2 HmP4 Clusterbasis CbSpec CbP CbP2 CbP3 CbP9 PropCb Cbmgr CbmSpec CbmP CbmP2 OrthoP OrthoP3 CopSpec CopP CopP2 H2matrix H2Spec H2P H2P3 PropH2
  Cbmgr H2build H2bSpec H2bP H2bP2 H2bP3 H2bP4.
Import ListNotations.

Section C49.
Context {K : fops} {G : ofops} (L : ring_laws K).
Implicit Types (m : mem K) (h : h2matrix G) (rb cb : cbasis G) (X : list mat).

Lemma own_lm m h X : h2own m h X -> lm (fun b => In b (map mblk (h2mats h ++ X)) \/ next m <= b) m (h2mats h ++ X).
Proof. intros [H1 H3]. apply lm_start; assumption. Qed.
Lemma lm_own' (D : nat -> Prop) m h X : lm D m (h2mats h ++ X) -> h2own m h X.
Proof. intros (H1 & H3 & _). split; assumption. Qed.
Lemma own_same m m' h X : h2own m h X -> kb (map mblk (h2mats h)) m m' -> same X m m'.
Proof.
  intros [H1 H3] HK. eapply same_kb; [exact HK|]. intros A HA. rewrite map_app in H3. rewrite Forall_forall in H1. split; [apply (H1 A), in_or_app; right; exact HA|].
  intros Hb. eapply NoDup_app_disj; [exact H3|exact Hb|apply in_map, HA].
Qed.
Lemma kb_lm (D : nat -> Prop) m m' bs Ls : lm D m Ls -> lm D m' Ls -> kb bs m m' -> keeps (fun a => In (fst a) bs) m m'.
Proof.
  intros (H0 & _ & HD & _) (_ & _ & _ & HF) [H1 H3]. split; [exact H1|]. intros a Ha. destruct (Nat.lt_ge_cases (fst a) (next m)) as [Hl|Hg]; [apply H3; intros [Hb|Hb]; [contradiction|lia]|].
  rewrite (get_next m a Hg). apply HF; [apply HD; exact Hg|]. intros Hi. apply in_map_iff in Hi as (A & E & HA). rewrite Forall_forall in H0. destruct (H0 A HA) as (_ & Hlt & _). lia.
Qed.
(** The represented matrix only depends on the storage of the bases and the leaves. *)
Lemma rep_bases X m0 m m' h : forall D : nat -> nat -> K, h2rep (cbmat m0) m' h D -> h2fit h -> same X m0 m -> incl (cbmats0 (h2_rb h)) X -> incl (cbmats0 (h2_cb h)) X -> h2rep (cbmat m) m' h D.
Proof.
  intros D HR. induction HR as [rb cb A Su ds D P1 P2 P3 P4|rb cb F ds D P1 P2 P3|rb cb ds D P1|rb cb l rsons csons ds hs ws D P1 P2 P3 P4 P5 P6 P7 IH]; intros Hf HS I1 I2; cbn [h2_rb h2_cb] in *.
  - apply (h2rep_u _ _ _ _ _ Su); auto. intros p q Hp Hq. rewrite (P4 p q Hp Hq). unfold vsw. apply sum_ext. intros r _. apply sum_ext. intros c _.
    rewrite (same_cbmat X m0 m rb HS I1), (same_cbmat X m0 m cb HS I2). reflexivity.
  - apply h2rep_f; auto.
  - apply h2rep_zero. exact P1.
  - inversion Hf as [| | |? ? ? R C ? S1 S2 El Hsn]; subst. apply (h2rep_super _ _ _ _ _ _ _ _ hs ws); auto. intros i j s Hi Hj Hs. destruct (Hsn i j s Hi Hj Hs) as (N1 & N2 & N3).
    assert (HD : forall (c c' : cbasis G) l' k, bsplit c l' -> nth_error l' k = Some c' -> incl (cbmats0 c) X -> incl (cbmats0 c') X).
    { intros c c' l' k [->|[_ ->]] Hk HI; [destruct k as [|[|k]]; try discriminate; injection Hk as <-; exact HI|]. eapply incl_tran; [|exact HI]. apply desc_mats0.
      eapply cbdesc_son; [eapply nth_error_In; exact Hk|apply cbdesc_here]. }
    apply (IH i j s Hi Hj Hs N3 HS); [exact (HD _ _ _ _ S1 N1 I1)|exact (HD _ _ _ _ S2 N2 I2)].
Qed.

(** ** Construction from a block tree *)

(** For every block tree and bases covering its clusters: the leaves of the H2-matrix are the leaves
    of the block tree in the same order, with a coupling matrix for every admissible leaf and a dense
    matrix for every other one; all matrices are new and have the right dimensions, and nothing else
    is changed.  The block tree can be recovered. *)
Theorem C49_build_from_block : forall (b : block G) rb cb m,
  block_tree b -> cbcover (b_rc b) rb -> cbcover (b_cc b) cb ->
  ends (build_from_block_h2matrix b rb cb) m (fun h m' =>
    h2_rb h = rb /\ h2_cb h = cb /\ map h2key (h2leaves h) = map b2key (bleaves b) /\ h2fit h /\ h2desc_ok h /\
    ((forall x, In x (bnodes b) -> b_a x = true -> b_son x = []) -> build_from_h2matrix_block h = Ok b) /\
    h2own m' h [] /\ (forall A, In A (h2mats h) -> next m <= mblk A) /\ keeps (fun a => next m <= fst a) m m').
Proof.
  intros b rb cb m T C1 C2. apply wp_ends. eapply wp_conseq; [apply (wp_buildh2 (fun x => next m <= x) b rb cb m [] T C1 C2), lm_fresh|].
  intros h m' (HB & E1 & E2 & Hf & Hd & HL & Hn & HK). split; [exact E1|]. split; [exact E2|]. split; [apply b2m_keys; exact HB|]. split; [exact Hf|]. split; [exact Hd|].
  split; [intros Ha; apply b2m_back; assumption|]. split; [eapply lm_own'; exact HL|]. split; [exact Hn|]. eapply keeps_mono; [|exact HK]. cbv beta. intros a [[]|Ha]. exact Ha.
Qed.
(** With a block tree of build_strict_block the H2-matrix has the structure required by the
    products (C33). *)
Theorem C49_build_strict : forall admis A (rt ct : cluster G) fuel rb cb m,
  evaluates admis A rt ct -> getdepth rt + getdepth ct < fuel -> cbcover (CP [] rt) rb -> cbcover (CP [] ct) cb ->
  exists b, build_strict admis fuel (CP [] rt) (CP [] ct) = Ok b /\
    ends (build_from_block_h2matrix b rb cb) m (fun h m' =>
      h2_rb h = rb /\ h2_cb h = cb /\ h2fit h /\ h2strict h /\ map h2key (h2leaves h) = map b2key (bleaves b) /\ h2own m' h [] /\
      keeps (fun a => next m <= fst a) m m').
Proof.
  intros admis A rt ct fuel rb cb m HA HF C1 C2. pose proof (rok_refined admis A fuel (CP [] rt) (CP [] ct) HA HF) as H. apply rok_inv in H as (b & E & E1 & E2 & T & HN).
  exists b. split; [exact E|]. apply wp_ends.
  assert (C1' : cbcover (b_rc b) rb) by (rewrite E1; exact C1). assert (C2' : cbcover (b_cc b) cb) by (rewrite E2; exact C2).
  eapply wp_conseq; [apply (wp_buildh2 (fun x => next m <= x) b rb cb m [] T C1' C2'), lm_fresh|].
  intros h m' (HB & F1 & F2 & Hf & Hd & HL & Hn & HK). split; [exact F1|]. split; [exact F2|]. split; [exact Hf|]. split.
  - eapply b2m_strict; [exact HB|exact T|exact HN|exact Hf|rewrite F1; exact C1'|rewrite F2; exact C2'].
  - split; [apply b2m_keys; exact HB|]. split; [eapply lm_own'; exact HL|]. eapply keeps_mono; [|exact HK]. cbv beta. intros a [[]|Ha]. exact Ha.
Qed.

(** ** Copies *)

(** A clone for copies of the bases represents the same matrix and has storage of its own. *)
Theorem C49_clone : forall h rb cb D m X,
  h2fit h -> cbok (h2_rb h) -> cbok (h2_cb h) -> ceq m m (h2_rb h) rb -> ceq m m (h2_cb h) cb ->
  h2own m h X -> incl (cbmats0 rb) X -> incl (cbmats0 cb) X -> h2rep (cbmat m) m h D ->
  ends (clone_h2matrix h rb cb) m (fun h' m' =>
    h2_rb h' = rb /\ h2_cb h' = cb /\ h2rep (cbmat m') m' h' D /\ h2sim h h' /\ h2fit h' /\ h2desc_ok h' /\
    h2own m' h' (h2mats h ++ X) /\ keeps (fun a => next m <= fst a) m m').
Proof.
  intros h rb cb D m X Hf K1 K2 Q1 Q2 HO I1 I2 HR. apply wp_ends. pose proof (own_lm m h X HO) as HL.
  eapply wp_conseq; [apply (wp_cloneh _ m h rb cb m _ D Hf K1 K2 Q1 Q2 HR HL); apply incl_appl, incl_refl|].
  intros h' m' ((HR' & HS) & E1 & E2 & Hf' & Hd & HL' & Hn & HK). split; [exact E1|]. split; [exact E2|].
  split. { eapply (rep_bases X m m' m' h' D HR' Hf'); [|rewrite E1; exact I1|rewrite E2; exact I2]. eapply same_kb; [exact HK|]. intros A HA. split; [|intros []].
    destruct HO as [H1 _]. rewrite Forall_forall in H1. apply (H1 A), in_or_app. right. exact HA. }
  split; [exact HS|]. split; [exact Hf'|]. split; [exact Hd|]. split; [eapply lm_own'; exact HL'|]. eapply keeps_mono; [|exact HK]. cbv beta. intros a [[]|Ha]. exact Ha.
Qed.
(** A clone of the structure, for bases of the same clusters but possibly other ranks, represents zero. *)
Theorem C49_clonestructure : forall h rb cb m M,
  h2fit h -> cbok (h2_rb h) -> cbok (h2_cb h) -> cshape (h2_rb h) rb -> cshape (h2_cb h) cb ->
  ends (clonestructure_h2matrix h rb cb) m (fun h' m' =>
    h2_rb h' = rb /\ h2_cb h' = cb /\ h2rep M m' h' (fun _ _ => f0) /\ h2sim h h' /\ h2fit h' /\ h2desc_ok h' /\
    h2own m' h' [] /\ (forall A, In A (h2mats h') -> next m <= mblk A) /\ keeps (fun a => next m <= fst a) m m').
Proof.
  intros h rb cb m M Hf K1 K2 Q1 Q2. apply wp_ends.
  eapply wp_conseq; [apply (wp_clonestr L (fun x => next m <= x) h rb cb m [] M Hf K1 K2 Q1 Q2), lm_fresh|].
  intros h' m' ((HR & HS) & E1 & E2 & Hf' & Hd & HL' & Hn & HK). split; [exact E1|]. split; [exact E2|]. split; [exact HR|].
  split; [exact HS|]. split; [exact Hf'|]. split; [exact Hd|]. split; [eapply lm_own'; exact HL'|]. split; [exact Hn|]. eapply keeps_mono; [|exact HK]. cbv beta. intros a [[]|Ha]. exact Ha.
Qed.

(** ** Changes in place *)
Theorem C49_clear : forall h m X,
  h2fit h -> cbok (h2_rb h) -> cbok (h2_cb h) -> h2own m h X ->
  ends (clear_h2matrix h) m (fun _ m' => (forall M, h2rep M m' h (fun _ _ => f0)) /\ h2own m' h X /\
    keeps (fun a => In (fst a) (map mblk (h2mats h))) m m').
Proof.
  intros h m X Hf K1 K2 HO. apply wp_ends. eapply (wp_clearh L _ m h X); [exact Hf|exact K1|exact K2|apply own_lm; exact HO|].
  intros m' HR HL HK. split; [exact HR|]. split; [eapply lm_own'; exact HL|]. eapply kb_lm; [apply own_lm; exact HO|exact HL|exact HK].
Qed.
Theorem C49_scale : forall alpha h D m X,
  h2fit h -> h2own m h X -> incl (cbmats0 (h2_rb h)) X -> incl (cbmats0 (h2_cb h)) X -> h2rep (cbmat m) m h D ->
  ends (scale_h2matrix alpha h) m (fun _ m' => h2rep (cbmat m') m' h (fun i j => alpha * D i j)%F /\ h2own m' h X /\
    keeps (fun a => In (fst a) (map mblk (h2mats h))) m m').
Proof.
  intros alpha h D m X Hf HO I1 I2 HR. apply wp_ends. eapply (wp_scaleh L _ m alpha h X (cbmat m) D); [exact Hf|apply own_lm; exact HO|exact HR|].
  intros m' HR' HL HK. split; [eapply rep_bases; [exact HR'|exact Hf|eapply own_same; eassumption|exact I1|exact I2]|]. split; [eapply lm_own'; exact HL|].
  eapply kb_lm; [apply own_lm; exact HO|exact HL|exact HK].
Qed.

(** ** Deletion: all matrices of the leaves are released, and nothing else. *)
Theorem C49_delete : forall h m X,
  h2fit h -> h2own m h X ->
  ends (del_h2matrix h) m (fun _ m' => (forall A a, In A (h2mats h) -> fst a = mblk A -> get m' a = Free) /\
    Forall (matown m') X /\ keeps (fun a => In (fst a) (map mblk (h2mats h))) m m').
Proof.
  intros h m X Hf HO. apply wp_ends. eapply wp_conseq; [apply (H2bP.wp_del _ h m X (fit_shape h Hf) (own_lm m h X HO))|]. intros u m' [HL HK].
  assert (HF : forall A a, In A (h2mats h) -> fst a = mblk A -> get m' a = Free).
  { intros A a HA Ea. apply HL; [rewrite Ea; left; apply in_map, in_or_app; left; exact HA|]. destruct HO as [_ HN]. rewrite map_app in HN. rewrite Ea. intros Hb.
    eapply NoDup_app_disj; [exact HN|apply in_map, HA|exact Hb]. }
  split; [exact HF|]. split; [apply HL|]. destruct HK as [N1 N2]. split; [exact N1|]. intros a Ha. destruct (Nat.lt_ge_cases (fst a) (next m)) as [Hl|Hg].
  - apply N2. cbv beta. intros [Hb|Hb]; [contradiction|lia].
  - rewrite (get_next m a Hg). apply HL; [right; exact Hg|]. intros Hb. apply in_map_iff in Hb as (A & E & HA). destruct HO as [H0 _]. rewrite Forall_forall in H0.
    destruct (H0 A (in_or_app _ _ _ (or_intror HA))) as (_ & Hlt & _). lia.
Qed.
(** Cloning and deleting the clone restores the memory. *)
Theorem C49_clone_delete : forall h rb cb D m X,
  h2fit h -> cbok (h2_rb h) -> cbok (h2_cb h) -> ceq m m (h2_rb h) rb -> ceq m m (h2_cb h) cb ->
  h2own m h X -> h2rep (cbmat m) m h D ->
  ends (h' <- clone_h2matrix h rb cb ;; del_h2matrix h') m (fun _ m' => forall a, get m' a = get m a).
Proof.
  intros h rb cb D m X Hf K1 K2 Q1 Q2 HO HR. apply wp_ends. apply wp_bind. pose proof (own_lm m h X HO) as HL.
  eapply wp_conseq; [apply (wp_cloneh _ m h rb cb m _ D Hf K1 K2 Q1 Q2 HR HL); apply incl_appl, incl_refl|].
  intros h' m1 ((_ & HS) & E1 & E2 & Hf' & Hd & HL' & Hn & HK). eapply wp_conseq; [apply (H2bP.wp_del _ h' m1 _ (fit_shape h' Hf') HL')|]. intros u m2 [HL2 HK2] a.
  destruct (Nat.lt_ge_cases (fst a) (next m)) as [Hl|Hg].
  - destruct HK as [N1 N2]. destruct HK2 as [N3 N4]. rewrite N4, N2; [reflexivity|cbv beta; intros [[]|Hb]; lia|].
    cbv beta. intros [Hb|Hb]; [|lia]. apply in_map_iff in Hb as (A & E & HA). pose proof (Hn A HA). lia.
  - rewrite (get_next m a Hg). apply HL2; [right; exact Hg|]. intros Hb. apply in_map_iff in Hb as (A & E & HA). destruct HO as [H0 _]. rewrite Forall_forall in H0.
    destruct (H0 A HA) as (_ & Hlt & _). lia.
Qed.

(** ** Statistics *)
Lemma size_run own h m (Q : nat -> mem K -> Prop) : h2fit h -> Q (list_sum (map own (h2nodes h))) m -> wp (fun _ => True) (fun _ => True) (h2sizeloop own h) m Q.
Proof. intros Hf HQ. apply wp_h2sizeloop; [apply fit_shape; exact Hf|intros Hn; apply (fit_leaf0 h h Hf); [destruct h as [? ? ? ? [?|] ? ? ?]; left; reflexivity|exact Hn]|intros s Hs; apply (fit_leaf0 h s Hf Hs)|exact HQ]. Qed.
(** The storage is that of the coupling matrices, that of the dense matrices and the structures of all
    submatrices; the total size includes both bases, or the only one if they coincide. *)
Theorem C49_sizes : forall Z Z2 h m, h2fit h -> h2desc_ok h ->
  let near := list_sum (map (fun s => match h2_f s with Some F => getsize_amatrix Z F | None => 0 end) (h2nodes h)) in
  let far := list_sum (map (fun s => match h2_u s with Some A => sz_uniform Z2 + getsize_heap_amatrix Z A | None => 0 end) (h2nodes h)) in
  let bases (same : bool) := getsize_clusterbasis Z Z2 (h2_rb h) + (if same then 0 else getsize_clusterbasis Z Z2 (h2_cb h)) in
  ends (getnearsize_h2matrix Z h) m (fun n m' => n = near /\ m' = m) /\
  ends (getfarsize_h2matrix Z Z2 h) m (fun n m' => n = far /\ m' = m) /\
  ends (getsize_h2matrix Z Z2 h) m (fun n m' => n = sz_h2matrix Z2 * h2_desc h + near + far /\ m' = m) /\
  (forall same, ends (gettotalsize_h2matrix Z Z2 same h) m (fun n m' => n = sz_h2matrix Z2 * h2_desc h + near + far + bases same /\ m' = m)).
Proof.
  intros Z Z2 h m Hf Hd near far bases. assert (E : list_sum (map (fun s => sz_h2matrix Z2 + h2size_u Z Z2 s + h2size_f Z s) (h2nodes h)) = sz_h2matrix Z2 * h2_desc h + near + far).
  { rewrite (Hd h) by (destruct h as [? ? ? ? [?|] ? ? ?]; left; reflexivity). unfold near, far. clear. induction (h2nodes h) as [|s l IH]; [cbn; lia|]. cbn [map list_sum fold_right length] in *. unfold list_sum in *. cbn [fold_right]. unfold h2size_u at 1, h2size_f at 1. rewrite IH. nia. }
  split; [|split; [|split]].
  - apply wp_ends, size_run; auto.
  - apply wp_ends, size_run; auto.
  - apply wp_ends, size_run; [exact Hf|]. rewrite E. auto.
  - intros sm. apply wp_ends. unfold gettotalsize_h2matrix. apply wp_bind. apply size_run; [exact Hf|]. rewrite E. cbn [wp]. unfold bases. destruct sm; split; try reflexivity; lia.
Qed.

(** ** Projections *)

(** The dense leaves receive the entries of the matrix for the indices of their clusters, the coupling
    matrices the projections V_t^* A|_{t x s} W_s. *)
Theorem C49_project_amatrix : forall ridx cidx a A gr gc h m X,
  h2fit h -> (forall s, In s (h2leaves h) -> h2_u s <> None \/ h2_f s <> None) -> cbready m (h2_rb h) -> cbready m (h2_cb h) ->
  h2own m h X -> incl (cbmats0 (h2_rb h)) X -> incl (cbmats0 (h2_cb h)) X -> mval m a A -> In (mblk a) (map mblk X) ->
  idx_at ridx (cb_off (h2_rb h)) (h2rows h) gr (mrows a) -> idx_at cidx (cb_off (h2_cb h)) (h2cols h) gc (mcols a) ->
  ends (project_amatrix_h2matrix ridx cidx a h) m (fun _ m' => h2proj (cbmat m) m' h (fun i j => A (gr i) (gc j)) /\ h2own m' h X /\
    keeps (fun x => In (fst x) (map mblk (h2mats h))) m m').
Proof.
  intros ridx cidx a A gr gc h m X Hf Hnz (R1 & R2 & R3) (C1 & C2 & C3) HO I1 I2 HA Ha X1 X2. apply wp_ends.
  assert (Y1 : forall (off n : nat) (g : nat -> nat) idx dim, idx_at idx off n g dim -> idx_at idx off n (fun p => (fun x => g (x - off)) (off + p)) dim).
  { intros off n g idx dim H p Hp. cbv beta. replace (off + p - off) with p by lia. apply H, Hp. }
  eapply (wp_projd L ridx cidx a A (fun x => gr (x - cb_off (h2_rb h))) (fun x => gc (x - cb_off (h2_cb h))) _ m h X); [exact Hf|exact Hnz| | |apply own_lm; exact HO|exact HA|exact Ha|].
  - split; [exact R1|]. split; [exact R2|]. split; [apply (Y1 _ _ _ _ _ X1)|]. split; assumption.
  - split; [exact C1|]. split; [exact C2|]. split; [apply (Y1 _ _ _ _ _ X2)|]. split; assumption.
  - intros m' HP HL HK. split; [|split; [eapply lm_own'; exact HL|eapply kb_lm; [apply own_lm; exact HO|exact HL|exact HK]]].
    eapply h2proj_ext; [exact HP|exact Hf|]. intros p q _ _. unfold cvals. do 2 f_equal; lia.
Qed.
(** The projection of an H-matrix of the same structure is that of the matrix it represents. *)
Theorem C49_project_hmatrix : forall h hm D m X,
  h2fit h -> h2hm h hm -> hrep m hm D -> (forall a, inh hm a -> In (fst a) (map mblk X)) ->
  cbok (h2_rb h) -> cbinit m (h2_rb h) -> cbok (h2_cb h) -> cbinit m (h2_cb h) ->
  h2own m h X -> incl (cbmats0 (h2_rb h)) X -> incl (cbmats0 (h2_cb h)) X ->
  ends (project_hmatrix_h2matrix h hm) m (fun _ m' => h2proj (cbmat m) m' h D /\ h2own m' h X /\
    keeps (fun x => In (fst x) (map mblk (h2mats h))) m m').
Proof.
  intros h hm D m X Hf HM HR Hin R1 R2 C1 C2 HO I1 I2. apply wp_ends.
  eapply wp_conseq; [apply (wp_projh L (fun b => In b (map mblk (h2mats h ++ X)) \/ next m <= b) m X h hm m X D); try assumption; [split; auto|split; auto|apply same_refl|apply own_lm; exact HO|apply incl_refl]|].
  intros u m' (HP & HL & HK). split; [exact HP|]. split; [eapply lm_own'; exact HL|eapply kb_lm; [apply own_lm; exact HO|exact HL|exact HK]].
Qed.
Lemma reproduce h (D : nat -> nat -> K) m0 m m' X :
  h2rep (cbmat m) m0 h D -> h2proj (cbmat m) m' h D -> h2fit h ->
  (forall c, cbdesc (h2_rb h) c \/ cbdesc (h2_cb h) c -> orthonormal (cb_size c) (cb_k c) (cbmat m c)) ->
  incl (cbmats0 (h2_rb h)) X -> incl (cbmats0 (h2_cb h)) X -> same X m m' ->
  h2rep (cbmat m') m' h D.
Proof.
  intros HR HP Hf HO I1 I2 HS. eapply rep_bases; [|exact Hf|exact HS|exact I1|exact I2]. eapply (rep_of_proj L); [exact HR|exact HP|].
  intros s Hs. destruct (fit_bases h s Hf Hs) as [B1 B2]. split; apply HO; auto.
Qed.
Lemma own_same' m m' h X : h2own m h X -> keeps (fun a => In (fst a) (map mblk (h2mats h))) m m' -> same X m m'.
Proof. intros HO HK. eapply own_same; [exact HO|]. eapply keeps_mono; [|exact HK]. cbv beta. auto. Qed.
(** With orthonormal bases projection reproduces every matrix that can be represented: if some contents
    [m0] of the leaves of [h] represent a matrix, then [h] represents this matrix after its projection. *)
Theorem C49_reproduce_amatrix : forall ridx cidx a A gr gc h m0 m X,
  h2fit h -> (forall s, In s (h2leaves h) -> h2_u s <> None \/ h2_f s <> None) -> cbready m (h2_rb h) -> cbready m (h2_cb h) ->
  h2own m h X -> incl (cbmats0 (h2_rb h)) X -> incl (cbmats0 (h2_cb h)) X -> mval m a A -> In (mblk a) (map mblk X) ->
  idx_at ridx (cb_off (h2_rb h)) (h2rows h) gr (mrows a) -> idx_at cidx (cb_off (h2_cb h)) (h2cols h) gc (mcols a) ->
  (forall c, cbdesc (h2_rb h) c \/ cbdesc (h2_cb h) c -> orthonormal (cb_size c) (cb_k c) (cbmat m c)) ->
  h2rep (cbmat m) m0 h (fun i j => A (gr i) (gc j)) ->
  ends (project_amatrix_h2matrix ridx cidx a h) m (fun _ m' => h2rep (cbmat m') m' h (fun i j => A (gr i) (gc j))).
Proof.
  intros ridx cidx a A gr gc h m0 m X Hf Hnz R C HO I1 I2 HA Ha X1 X2 HON HR.
  destruct (C49_project_amatrix ridx cidx a A gr gc h m X Hf Hnz R C HO I1 I2 HA Ha X1 X2) as (u & m' & E & HP & HO' & HK). exists u, m'. split; [exact E|].
  eapply reproduce; [exact HR|exact HP|exact Hf|exact HON|exact I1|exact I2|eapply own_same'; eassumption].
Qed.
Theorem C49_reproduce_hmatrix : forall h hm D m0 m X,
  h2fit h -> h2hm h hm -> hrep m hm D -> (forall a, inh hm a -> In (fst a) (map mblk X)) ->
  cbok (h2_rb h) -> cbinit m (h2_rb h) -> cbok (h2_cb h) -> cbinit m (h2_cb h) ->
  h2own m h X -> incl (cbmats0 (h2_rb h)) X -> incl (cbmats0 (h2_cb h)) X ->
  (forall c, cbdesc (h2_rb h) c \/ cbdesc (h2_cb h) c -> orthonormal (cb_size c) (cb_k c) (cbmat m c)) ->
  h2rep (cbmat m) m0 h D ->
  ends (project_hmatrix_h2matrix h hm) m (fun _ m' => h2rep (cbmat m') m' h D).
Proof.
  intros h hm D m0 m X Hf HM HR Hin R1 R2 C1 C2 HO I1 I2 HON HR0.
  destruct (C49_project_hmatrix h hm D m X Hf HM HR Hin R1 R2 C1 C2 HO I1 I2) as (u & m' & E & HP & HO' & HK). exists u, m'. split; [exact E|].
  eapply reproduce; [exact HR0|exact HP|exact Hf|exact HON|exact I1|exact I2|eapply own_same'; eassumption].
Qed.
End C49.

(** ** Examples *)
Lemma ceq_self {K : fops} {G : ofops} (m : mem K) (cb : cbasis G) : cbinit m cb -> ceq m m cb cb.
Proof.
  induction cb as [cb IH] using cb_rect'. intros HI. destruct cb as [t k kt kb V E l Z]. destruct l as [|s0 l].
  - apply ceq_leaf; [reflexivity|reflexivity|]. eapply cbinit_V; exact HI.
  - apply ceq_node; [discriminate|reflexivity|]. intros i s s' Hs Hs'. rewrite Hs in Hs'. injection Hs' as <-. pose proof (nth_error_In _ _ Hs) as Hin.
    split; [apply (IH s Hin); eapply cbinit_son; [exact HI|exact Hin]|]. split; [reflexivity|]. split; [reflexivity|]. eapply cbinit_E; [exact HI|exact Hin].
Qed.
Lemma cshape_self {G : ofops} (cb : cbasis G) : cshape cb cb.
Proof. induction cb as [cb IH] using cb_rect'. constructor; [reflexivity|reflexivity|]. intros i s s' Hs Hs'. rewrite Hs in Hs'. injection Hs' as <-. apply (IH s (nth_error_In _ _ Hs)). Qed.

(** The matrix of C33 with the zero leaves replaced by uniform ones, and a dense matrix to project *)
Definition xpm : list (list GQf) := xhm2 ++ [ []; [gq 0 0]; [gq 1 0; gq 2 1; gq 3 0; gq 4 0; gq 5 5; gq 6 0; gq 7 0; gq 8 0; gq 9 1] ].
Definition xpa : mat := Mat 23 0 3 3 3 true.
Definition xp11b : h2matrix QcO := H2 xc11 xc10 (Some (Mat 21 0 0 0 1 true)) None None 0 0 1.
Definition xp11c : h2matrix QcO := H2 xc10 xc11 (Some (Mat 22 0 1 1 0 true)) None None 0 0 1.
Definition xp11 : h2matrix QcO := H2 xc1 xc1 None None (Some [xh11a; xp11b; xp11c; xh11d]) 2 2 5.
Definition xp : h2matrix QcO := H2 xc xc None None (Some [xh00; xh10; xh01; xp11]) 2 2 11.
Definition xpX : list mat := cbmats0 xc ++ [xpa].

Lemma split_sons (cb : cbasis QcO) : cb_son cb <> [] -> bsplit cb (cb_son cb). Proof. intros H. right. auto. Qed.
Lemma xh_fit : h2fit xh.
Proof.
  apply (h2fit_super xc xc _ [xc0; xc1] [xc0; xc1]); [apply (split_sons xc); discriminate|apply (split_sons xc); discriminate|reflexivity|].
  intros [|[|i]] [|[|j]] s Hi Hj Hs; cbn in Hi, Hj; try lia; cbn in Hs; injection Hs as <-; (split; [reflexivity|]); (split; [reflexivity|]).
  - apply h2fit_f; reflexivity.
  - apply h2fit_u; reflexivity.
  - apply (h2fit_super xc1 xc0 _ [xc10; xc11] [xc0]); [apply (split_sons xc1); discriminate|left; reflexivity|reflexivity|].
    intros [|[|i]] [|j] s Hi' Hj' Hs; cbn in Hi', Hj'; try lia; cbn in Hs; injection Hs as <-; (split; [reflexivity|]); (split; [reflexivity|]); apply h2fit_u; reflexivity.
  - apply (h2fit_super xc1 xc1 _ [xc10; xc11] [xc10; xc11]); [apply (split_sons xc1); discriminate|apply (split_sons xc1); discriminate|reflexivity|].
    intros [|[|i]] [|[|j]] s Hi' Hj' Hs; cbn in Hi', Hj'; try lia; cbn in Hs; injection Hs as <-; (split; [reflexivity|]); (split; [reflexivity|]); solve [apply h2fit_f; reflexivity|apply h2fit_zero].
Qed.
Lemma xp_fit : h2fit xp.
Proof.
  apply (h2fit_super xc xc _ [xc0; xc1] [xc0; xc1]); [apply (split_sons xc); discriminate|apply (split_sons xc); discriminate|reflexivity|].
  intros [|[|i]] [|[|j]] s Hi Hj Hs; cbn in Hi, Hj; try lia; cbn in Hs; injection Hs as <-; (split; [reflexivity|]); (split; [reflexivity|]).
  - apply h2fit_f; reflexivity.
  - apply h2fit_u; reflexivity.
  - apply (h2fit_super xc1 xc0 _ [xc10; xc11] [xc0]); [apply (split_sons xc1); discriminate|left; reflexivity|reflexivity|].
    intros [|[|i]] [|j] s Hi' Hj' Hs; cbn in Hi', Hj'; try lia; cbn in Hs; injection Hs as <-; (split; [reflexivity|]); (split; [reflexivity|]); apply h2fit_u; reflexivity.
  - apply (h2fit_super xc1 xc1 _ [xc10; xc11] [xc10; xc11]); [apply (split_sons xc1); discriminate|apply (split_sons xc1); discriminate|reflexivity|].
    intros [|[|i]] [|[|j]] s Hi' Hj' Hs; cbn in Hi', Hj'; try lia; cbn in Hs; injection Hs as <-; (split; [reflexivity|]); (split; [reflexivity|]); solve [apply h2fit_f; reflexivity|apply h2fit_u; reflexivity].
Qed.
Ltac ownx := split; [apply Forall_forall; let A := fresh in let HA := fresh in intros A HA; cbn in HA; decompose [or] HA; try contradiction; subst A;
      (split; [reflexivity|]; split; [apply Nat.ltb_lt; vm_compute; reflexivity|]; split; [unfold mwf; cbn; lia|]; eapply mval_malloc; apply mval_of; reflexivity)
  |cbn; repeat (apply NoDup_cons; [cbn; lia|]); apply NoDup_nil].
Lemma xc_ready (l : list (list GQf)) : (forall A, In A [xE0; xV0; xE1; xE10; xV10; xE11; xV11] -> mval (mem_of l) A (mof l A)) -> cbready (mem_of l) xc.
Proof.
  intros HV. split; [exact xc_ok|]. split; [exact xc_placed|]. intros a H. apply xc_in in H as (A & H & (i & j & Hi & Hj & ->)). exists (mof l A i j). apply (HV A H); assumption.
Qed.

(** The hypotheses of the theorems about copies, changes in place, sizes and deletion *)
Example C49_hyps : let m := mem_of xhm2 in
  h2fit xh /\ h2desc_ok xh /\ cbok xc /\ ceq m m xc xc /\ cshape xc xc /\ h2own m xh (cbmats0 xc) /\ h2rep (cbmat m) m xh xhD.
Proof.
  cbv zeta. split; [exact xh_fit|]. split. { intros s Hs. cbn in Hs. decompose [or] Hs; try contradiction; subst s; reflexivity. }
  split; [exact xc_ok|]. split. { apply ceq_self. apply xc_ready. intros A HA. cbn in HA. decompose [or] HA; try contradiction; subst A; apply mval_of; reflexivity. }
  split; [apply cshape_self|]. split; [|exact xh_rep]. ownx.
Qed.
(** ... and of the projection of a dense matrix *)
Example C49_hyps_project : let m := mem_of xpm in
  h2fit xp /\ (forall s, In s (h2leaves xp) -> h2_u s <> None \/ h2_f s <> None) /\ cbready m (h2_rb xp) /\ cbready m (h2_cb xp) /\
  h2own m xp xpX /\ incl (cbmats0 (h2_rb xp)) xpX /\ mval m xpa (mof xpm xpa) /\ In (mblk xpa) (map mblk xpX) /\
  idx_at xcidx (cb_off (h2_rb xp)) (h2rows xp) xcip (mrows xpa).
Proof.
  assert (R : cbready (mem_of xpm) xc). { apply xc_ready. intros A HA. cbn in HA. decompose [or] HA; try contradiction; subst A; apply mval_of; reflexivity. }
  cbv zeta. split; [exact xp_fit|]. split. { intros s Hs. cbn in Hs. decompose [or] Hs; try contradiction; subst s; solve [left; discriminate|right; discriminate]. }
  split; [exact R|]. split; [exact R|]. split; [ownx|]. split; [apply incl_appl, incl_refl|]. split; [apply mval_of; reflexivity|]. split; [cbn; auto 20|].
  intros [|[|[|p]]] Hp; cbn in Hp; try lia; split; try reflexivity; cbn; lia.
Qed.

(** Projection of an H-matrix: bases with the matrix diag(1,i), which is orthonormal; a uniform matrix with
    undetermined contents (block 6), a low-rank matrix of rank two, and the same matrix in dense form. *)
Definition yV0 : mat := Mat 0 0 1 1 1 true.
Definition yV1 : mat := Mat 1 0 1 1 1 true.
Definition yE0 : mat := Mat 2 0 1 1 2 true.
Definition yE1 : mat := Mat 3 0 1 1 2 true.
Definition y0 : cbasis QcO := CB (CP [0; 1] (xcl 1 1)) 1 2 2 yV0 yE0 [] None.
Definition y1 : cbasis QcO := CB (CP [1; 1] (xcl 1 2)) 1 2 2 yV1 yE1 [] None.
Definition yb : cbasis QcO := CB (CP [1] xcb) 2 6 4 (Mat 4 0 0 0 0 true) (Mat 5 0 0 0 0 true) [y0; y1] None.
Definition yS : mat := Mat 6 0 2 2 2 true.
Definition yh : h2matrix QcO := H2 yb yb (Some yS) None None 0 0 1.
Definition yA : mat := Mat 7 0 2 2 2 true.
Definition yB : mat := Mat 8 0 2 2 2 true.
Definition yhm : hmatrix QcO := HM (CP [1] xcb) (CP [1] xcb) (Some (Rk yA yB 2)) None None 0 0 1.
Definition ya : mat := Mat 9 0 3 3 3 true.
Definition ymem (s : list GQf) : list (list GQf) :=
  [ [gq 1 0]; [gq 1 0]; [gq 1 0; gq 0 0]; [gq 0 0; gq 0 1]; []; []; s; [gq 1 0; gq 0 3; gq 0 (-2); gq 4 0]; [gq 1 0; gq 0 0; gq 0 0; gq 1 0];
    [gq 0 0; gq 0 0; gq 0 0; gq 0 0; gq 1 0; gq 0 3; gq 0 0; gq 0 (-2); gq 4 0] ].
Definition ym : mem GQf := mem_of (ymem [gq 7 7; gq 7 7; gq 7 7; gq 7 7]).
Definition ym0 : mem GQf := mem_of (ymem [gq 1 0; gq 3 0; gq 2 0; gq 4 0]).
Definition yidx : arr nat := aof [0; 1; 2].
Definition yD (i j : nat) : GQf := mof (ymem []) ya (S i) (S j).
Definition yX : list mat := cbmats0 yb ++ [yA; yB; ya].
Lemma y_ok : cbok yb.
Proof.
  apply cbok_node; try reflexivity; [discriminate| |].
  - intros s [<-|[<-|[]]]; (split; [|split; reflexivity]).
    + apply (cbok_leaf (CP [0; 1] (xcl 1 1)) 1); reflexivity.
    + apply (cbok_leaf (CP [1; 1] (xcl 1 2)) 1); reflexivity.
  - intros [|[|i]] s H; cbn in H; try (injection H as <-; reflexivity). destruct i; discriminate.
Qed.
Lemma y_placed : cbplaced yb.
Proof. intros o r c H. cbn in H. decompose [or] H; try contradiction; match goal with H : (_, _, _) = _ |- _ => injection H as <- <- <- end; reflexivity. Qed.
Lemma y_init : cbinit ym yb.
Proof.
  intros a H. assert (HA : exists A, In A [yE0; yV0; yE1; yV1] /\ inm A a).
  { apply incb_inner in H; [|discriminate]. destruct H as (s & [<-|[<-|[]]] & [H|H]); try apply incb_leaf in H; eexists; (split; [|exact H]); cbn; auto. }
  destruct HA as (A & HA & i & j & Hi & Hj & ->). exists (mof (ymem [gq 7 7; gq 7 7; gq 7 7; gq 7 7]) A i j).
  assert (V : mval ym A (mof (ymem [gq 7 7; gq 7 7; gq 7 7; gq 7 7]) A)); [|apply V; assumption].
  cbn in HA. decompose [or] HA; try contradiction; subst A; apply mval_of; reflexivity.
Qed.
Example C49_hyps_reproduce :
  h2fit yh /\ (forall s, In s (h2leaves yh) -> h2_u s <> None \/ h2_f s <> None) /\ cbready ym yb /\ h2own ym yh yX /\ incl (cbmats0 yb) yX /\
  mval ym ya (mof (ymem []) ya) /\ In (mblk ya) (map mblk yX) /\ idx_at yidx (cb_off yb) (h2rows yh) S (mrows ya) /\
  h2hm yh yhm /\ hrep ym yhm yD /\ (forall a, inh yhm a -> In (fst a) (map mblk yX)) /\
  (forall c, cbdesc yb c -> orthonormal (cb_size c) (cb_k c) (cbmat ym c)) /\ h2rep (cbmat ym) ym0 yh yD.
Proof.
  split; [apply h2fit_u; reflexivity|]. split. { intros s [<-|[]]. left. discriminate. }
  split. { split; [exact y_ok|]. split; [exact y_placed|exact y_init]. }
  split; [ownx|]. split; [apply incl_appl, incl_refl|]. split. { eapply mval_ext; [apply (mval_of (ymem [gq 7 7; gq 7 7; gq 7 7; gq 7 7])); reflexivity|]. reflexivity. }
  split; [cbn; auto 20|]. split. { intros [|[|p]] Hp; cbn in Hp; try lia; split; try reflexivity; cbn; lia. }
  split; [apply h2hm_u|]. split.
  { apply hrep_rk; try reflexivity. exists (mof (ymem []) yA), (mof (ymem []) yB).
    split; [eapply mval_ext; [apply (mval_of (ymem [gq 7 7; gq 7 7; gq 7 7; gq 7 7])); reflexivity|reflexivity]|].
    split; [eapply mval_ext; [apply (mval_of (ymem [gq 7 7; gq 7 7; gq 7 7; gq 7 7])); reflexivity|reflexivity]|].
    split; [reflexivity|]. split; [reflexivity|]. intros [|[|i]] [|[|j]] Hi Hj; cbn in Hi, Hj; try lia; vm_compute; reflexivity. }
  split. { intros a H. inversion H as [h r b E Ha|h f b E Ha|h l s b E]; subst; cbn in E; try discriminate. injection E as <-. destruct Ha as [Ha|Ha]; apply inm_blk in Ha; rewrite Ha; cbn; auto 20. }
  split.
  { assert (Hd : forall c, cbdesc yb c -> c = yb \/ c = y0 \/ c = y1).
    { intros c Hc. inversion Hc as [|? s ? Hs Hd]; subst; [auto|]. destruct Hs as [<-|[<-|[]]]; inversion Hd as [|? t ? Ht]; subst; auto; destruct Ht. }
    intros c Hc. destruct (Hd c Hc) as [->|[->| ->]].
    - intros [|[|i]] [|[|j]] Hi Hj; cbn in Hi, Hj; try lia; vm_compute; reflexivity.
    - intros [|i] [|j] Hi Hj; cbn in Hi, Hj; try lia; vm_compute; reflexivity.
    - intros [|i] [|j] Hi Hj; cbn in Hi, Hj; try lia; vm_compute; reflexivity. }
  apply (h2rep_u _ _ _ _ _ (mof (ymem [gq 1 0; gq 3 0; gq 2 0; gq 4 0]) yS)); try reflexivity; [apply mval_of; reflexivity|].
  intros [|[|i]] [|[|j]] Hi Hj; cbn in Hi, Hj; try lia; vm_compute; reflexivity.
Qed.

(** The hypotheses of the theorems about the construction: the basis of C30, blocks of disjoint clusters
    are admissible. *)
Definition xadm (r c : cluster QcO) : bool := (c_off r + c_size r <=? c_off c) || (c_off c + c_size c <=? c_off r).
Lemma xc_cover : cbcover (CP [] xcr) xc.
Proof.
  apply (cbcover_intro xc); [reflexivity|]. intros [|[|i]] s Hs; cbn in Hs; [injection Hs as <-..|destruct i; discriminate]; (eexists; split; [reflexivity|]).
  - apply (cbcover_intro xc0); [reflexivity|]. intros [|i] s Hs; discriminate.
  - apply (cbcover_intro xc1); [reflexivity|]. intros [|[|i]] s Hs; cbn in Hs; [injection Hs as <-..|destruct i; discriminate]; (eexists; split; [reflexivity|]).
    + apply (cbcover_intro xc10); [reflexivity|]. intros [|i] s Hs; discriminate.
    + apply (cbcover_intro xc11); [reflexivity|]. intros [|i] s Hs; discriminate.
Qed.
Example C49_hyps_build : evaluates (fun r c => Ok (xadm r c)) xadm xcr xcr /\ getdepth xcr + getdepth xcr < 9 /\ cbcover (CP [] xcr) xc /\
  exists b, build_strict (fun r c => Ok (xadm r c)) 9 (CP [] xcr) (CP [] xcr) = Ok b /\ block_tree b /\ b_rc b = CP [] xcr /\ b_cc b = CP [] xcr /\
    map (fun x => (c_off (cp_c (b_rc x)), c_off (cp_c (b_cc x)), b_a x)) (bleaves b) =
      [(0, 0, false); (1, 0, true); (0, 1, true); (1, 1, false); (2, 1, true); (1, 2, true); (2, 2, false)].
Proof.
  assert (HA : evaluates (fun r c => Ok (xadm r c)) xadm xcr xcr) by (intros r c _ _; reflexivity). assert (HF : getdepth xcr + getdepth xcr < 9) by (vm_compute; lia).
  split; [exact HA|]. split; [exact HF|]. split; [exact xc_cover|].
  pose proof (rok_refined _ xadm 9 (CP [] xcr) (CP [] xcr) HA HF) as H. apply rok_inv in H as (b & E & E1 & E2 & T & _). exists b. split; [exact E|]. split; [exact T|]. split; [exact E1|]. split; [exact E2|].
  assert (V : match build_strict (fun r c => Ok (xadm r c)) 9 (CP [] xcr) (CP [] xcr) with Ok b => map (fun x => (c_off (cp_c (b_rc x)), c_off (cp_c (b_cc x)), b_a x)) (bleaves b) | Err _ => [] end =
    [(0, 0, false); (1, 0, true); (0, 1, true); (1, 1, false); (2, 1, true); (1, 2, true); (2, 2, false)]) by (vm_compute; reflexivity).
  rewrite E in V. exact V.
Qed.

(** ** Zero leaves

    new_zero_h2matrix and clones produce leaves without a matrix.  project_amatrix_h2matrix accesses a
    null pointer for them (h2matrix.c:1918), build_from_h2matrix_block fails an assertion (h2matrix.c:513). *)
Definition xz : h2matrix QcO := new_zero_h2matrix xc0 xc0.
Theorem C49_project_zero_refuted : h2fit xz /\ cbready (mem_of xpm) xc0 /\ h2own (mem_of xpm) xz xpX /\ incl (cbmats0 xc0) xpX /\ mval (mem_of xpm) xpa (mof xpm xpa) /\
  idx_at xcidx (cb_off xc0) (cb_size xc0) xcip (mrows xpa) /\ fails (project_amatrix_h2matrix xcidx xcidx xpa xz) (mem_of xpm) ENull.
Proof.
  destruct C49_hyps_project as (_ & _ & R & _ & HO & _ & HV & _). split; [apply h2fit_zero|]. split.
  { destruct R as (R1 & R2 & R3). split; [apply (cbok_leaf (CP [0] (xcl 1 0)) 1); reflexivity|]. split.
    - intros o r c H. cbn in H. decompose [or] H; try contradiction; match goal with H : (_, _, _) = _ |- _ => injection H as <- <- <- end; reflexivity.
    - eapply cbinit_son; [exact R3|left; reflexivity]. }
  split; [ownx|]. split. { intros A HA. cbn in HA. cbn. tauto. } split; [exact HV|]. split; [|reflexivity].
  intros [|p] Hp; cbn in Hp; try lia. split; [reflexivity|cbn; lia].
Qed.
Theorem C49_to_block_zero_refuted : h2fit xz /\ build_from_h2matrix_block xz = Err EAssert.
Proof. split; [apply h2fit_zero|reflexivity]. Qed.

Print Assumptions C49_build_from_block.
Print Assumptions C49_build_strict.
Print Assumptions C49_clone.
Print Assumptions C49_clonestructure.
Print Assumptions C49_clear.
Print Assumptions C49_scale.
Print Assumptions C49_delete.
Print Assumptions C49_clone_delete.
Print Assumptions C49_sizes.
Print Assumptions C49_project_amatrix.
Print Assumptions C49_project_hmatrix.
Print Assumptions C49_reproduce_amatrix.
Print Assumptions C49_reproduce_hmatrix.
Print Assumptions C49_project_zero_refuted.
Print Assumptions C49_to_block_zero_refuted.
