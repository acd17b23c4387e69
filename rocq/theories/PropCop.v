(** * Property C47: cluster operators and products of cluster bases *)
From Coq Require Import Arith Lia List Bool ZArith.
From Verif Require Import Fld Inst Ord OrdInst Prog Arr View Spec Loop Cluster Block Avector Amatrix AmatrixP2 Hmatrix HmSpec Clusterbasis CbSpec CbP CbP9 Cbmgr CbmSpec CbmP CbmP2 CbmP3
  Chol CholInst Qr QrInst Clusterop CopSpec OrthoP OrthoP3 OrthoP4 CopP CopP2 CopP3 PropCb PropCbm PropOrtho.
Import ListNotations.

Section C47.
Context {K : fops} {G : ofops}.
Implicit Types (m : mem K) (cb : cbasis G) (co pr : clusterop G).

(** ** An operator built for a basis has one matrix for each cluster of the basis, with no rows and as many
    columns as the rank.  It owns all storage allocated.  It can be used for orthogonalisation and weights
    ([cofor]) and for the products of bases with the same clusters ([prfor]). *)
Theorem C47_build_from_clusterbasis : forall cb m,
  cbfull cb ->
  ends (build_from_clusterbasis_clusteroperator cb) m (fun co m' =>
    co_t co = cb_t cb /\ co_krow co = 0 /\ co_kcol co = cb_k cb /\ cofor cb co /\ (forall cb2, cshape cb cb2 -> prfor cb cb2 co) /\
    keeps (fun a => next m <= fst a) m m' /\ lm (fun b => next m <= b) m' (comats co)).
Proof.
  intros cb m Hf. apply wp_ends. eapply (wp_cobuild cb Hf); [apply lm_fresh|]. intros co m' P1 P2 P3 HL _ HK. rewrite app_nil_r in HL. split.
  { destruct (prfor_inv _ _ _ P1) as (E & _). symmetry. exact E. }
  split; [exact P2|]. split; [exact P3|]. split; [apply prfor_cofor, P1|]. split; [intros cb2 Hs; apply prfor_shape; assumption|]. split; [|exact HL].
  eapply keeps_mono; [|exact HK]. intros a [[]|Ha]. exact Ha.
Qed.
(** Deleting an operator releases its storage and nothing else. *)
Theorem C47_delete : forall co m (D : nat -> Prop) Ls,
  lm D m (comats co ++ Ls) ->
  ends (del_clusteroperator co) m (fun _ m' =>
    lm D m' Ls /\ (forall A a, In A (comats co) -> D (mblk A) -> fst a = mblk A -> get m' a = Free) /\
    keeps (fun a => In (fst a) (map mblk (comats co))) m m').
Proof.
  intros co m D Ls H. apply wp_ends. eapply wp_codel; [exact H|]. intros m' HL HK. split; [exact HL|]. split; [|exact HK].
  intros A a HA HD Ea. apply HL; [rewrite Ea; exact HD|]. destruct H as (_ & HN & _). rewrite map_app in HN. apply (NoDup_appx _ _ _ HN). rewrite Ea. apply in_map, HA.
Qed.
(** Creating and deleting an operator leaves the memory as it was. *)
Theorem C47_build_delete : forall cb m,
  cbfull cb ->
  ends (bind (build_from_clusterbasis_clusteroperator cb) del_clusteroperator) m (fun _ m' => forall a, get m' a = get m a).
Proof.
  intros cb m Hf. apply wp_ends. apply wp_bind. eapply (wp_cobuild cb Hf); [apply lm_fresh|]. intros co m1 P1 _ _ HL HB HK.
  eapply wp_codel; [exact HL|]. intros m2 HL2 HK2 a. destruct (Nat.lt_ge_cases (fst a) (next m)) as [Hlt|Hge].
  - rewrite (proj2 HK2), (proj2 HK); [reflexivity|intros [[]|Hc]; lia|]. intros Ha. apply HB in Ha. lia.
  - rewrite (get_next m a Hge). apply HL2; [exact Hge|intros []].
Qed.

(** ** Products.  The operator receives [V^* W] for each of its clusters, where [V] and [W] are the matrices
    of the two bases ([prod_of]).  Previous contents and ranks of the operator do not matter, and the bases
    do not change. *)
Theorem C47_basisproduct (L : ring_laws K) : forall cb1 cb2 pr m (D : nat -> Prop) Ls,
  cbok cb1 -> cbok cb2 -> cbinit m cb1 -> cbinit m cb2 -> prfor cb1 cb2 pr ->
  incl (cbmats cb1) Ls -> incl (cbmats cb2) Ls -> lm D m (comats pr ++ Ls) ->
  ends (basisproduct_clusteroperator cb1 cb2 pr) m (fun pr' m' =>
    prod_of m m' cb1 cb2 pr' /\ prfor cb1 cb2 pr' /\ length (co_son pr') = length (co_son pr) /\ lm D m' (comats pr' ++ Ls) /\
    (forall a, incb cb1 a \/ incb cb2 a -> get m' a = get m a) /\
    keeps (fun a => In (fst a) (map mblk (comats pr)) \/ next m <= fst a) m m').
Proof.
  intros cb1 cb2 pr m D Ls O1 O2 I1 I2 HF N1 N2 HL. apply wp_ends. eapply (wp_basisproduct L pr cb1 cb2 D Ls m); try assumption.
  { intros A HA. apply N1, mats0_in, HA. } { intros A HA. apply N2, mats0_in, HA. }
  intros pr' m' P1 P2 P3 P4 HL' _ HK. split; [exact P1|]. split; [exact P2|]. split; [exact P4|]. split; [exact HL'|]. split; [|exact HK].
  intros a Ha. apply (proj2 HK). assert (HA : In (fst a) (map mblk Ls)).
  { destruct Ha as [Ha|Ha]; apply incb_cbmats in Ha; apply in_map_iff in Ha as (A & <- & HA); apply in_map; auto. }
  intros [Hb|Hb].
  - destruct HL as (_ & HN & _). rewrite map_app in HN. apply (NoDup_appx _ _ _ HN Hb HA).
  - pose proof (lm_blk D m _ (fst a) HL) as Hlt. rewrite map_app in Hlt. specialize (Hlt ltac:(apply in_or_app; right; exact HA)). lia.
Qed.
(** The products of an orthogonal basis with itself are identities. *)
Theorem C47_orthogonal (L : ring_laws K) : forall m m' cb pr,
  orthonormal (cb_size cb) (cb_k cb) (cbmat m cb) -> prod_of m m' cb cb pr -> mrows (co_C pr) = co_krow pr -> mcols (co_C pr) = co_kcol pr -> mval m' (co_C pr) idf.
Proof.
  intros m m' cb pr HO HP R1 R2 i j Hi Hj. inversion HP as [? ? ? P1 P2 P3 P4]; subst. rewrite (P3 i j Hi Hj). f_equal. apply HO; lia.
Qed.
End C47.

(** ** Examples: the basis and the operator of property C44, and a mixed case where one of the bases is a leaf *)
Lemma oo_prfor : prfor ob ob oo.
Proof.
  apply prfor_intro; try reflexivity; [discriminate|intros _; split; reflexivity|].
  intros [|[|i]] s1 s2 p H1 H2 H3; cbn in H1, H2, H3; [| |destruct i; discriminate]; injection H1 as <-; injection H2 as <-; injection H3 as <-;
    (apply prfor_intro; try reflexivity; [left; reflexivity|intros Hc; contradiction Hc; reflexivity|intros [|i] ? ? ? X; discriminate X]).
Qed.
Definition ol : cbasis QcO := CB (CP [] ocr) 1 4 4 (Mat 9 0 3 3 1 true) (Mat 10 0 1 1 0 true) [] None.
Definition ool : clusterop QcO := CO (CP [] ocr) 0 0 (Mat 8 0 0 0 0 true) [].
Definition olm : list (list Rf) := obm ++ [map Rdefinitions.IZR [1; 2; 3]%Z; []].
Lemma ol_prfor : prfor ob ol ool /\ prfor ol ob ool.
Proof. split; (apply prfor_intro; try reflexivity; [tauto|intros Hc; contradiction Hc; reflexivity|intros [|i] ? ? ? ? ? X; discriminate X]). Qed.
Example C47_hyps : ring_laws Rf /\ cbfull ob /\ cbok ob /\ cbok ol /\ cbinit (mem_of olm) ob /\ cbinit (mem_of olm) ol /\ prfor ob ob oo /\ prfor ob ol ool /\ prfor ol ob ool /\ cshape ob ob /\
  lm (fun b => In b (map mblk (comats ool ++ cbmats ob ++ cbmats ol)) \/ next (mem_of olm) <= b) (mem_of olm) (comats ool ++ cbmats ob ++ cbmats ol) /\
  cbmat (mem_of olm) ol 2 0 = Rdefinitions.IZR 3.
Proof.
  assert (HM : forall A a, mval (mem_of olm) A (mof olm A) -> inm A a -> exists v, get (mem_of olm) a = Val v).
  { intros A a H (i & j & Hi & Hj & ->). eexists. apply H; assumption. }
  split; [exact (fl_ring Rf Rf_field)|]. split.
  { intros c Hc Hn. apply desc_inv in Hc as [->|(s & Hs & Hc)]; [reflexivity|]. destruct Hs as [<-|[<-|[]]]; apply desc_inv in Hc as [->|(s & [] & Hc)]; contradiction Hn; reflexivity. }
  split; [exact ob_ok|]. split; [apply (cbok_leaf (CP [] ocr) 1); reflexivity|].
  split. { intros a H. apply incb_inner in H; [|discriminate]. destruct H as (s & [<-|[<-|[]]] & [H|H]); try apply incb_leaf in H; refine (HM _ _ _ H); apply mval_of; reflexivity. }
  split. { intros a H. apply incb_leaf in H. refine (HM _ _ _ H); apply mval_of; reflexivity. }
  split; [exact oo_prfor|]. split; [apply ol_prfor|]. split; [apply ol_prfor|]. split.
  { constructor; [reflexivity|reflexivity|]. intros [|[|i]] s1 s2 H1 H2; cbn in H1, H2; [| |destruct i; discriminate]; injection H1 as <-; injection H2 as <-; constructor; try reflexivity; intros [|i] ? ? X; discriminate X. }
  split; [|reflexivity]. apply lm_start.
  - apply Forall_forall. intros A HA. cbn in HA. decompose [or] HA; try contradiction; subst A;
    (split; [reflexivity|]; split; [apply Nat.ltb_lt; vm_compute; reflexivity|]; split; [unfold mwf; cbn; lia|]);
    first [(eapply mval_malloc; apply mval_of; reflexivity) | (intros i j Hi Hj; cbn in Hi, Hj; lia)].
  - cbn. repeat (apply NoDup_cons; [cbn; lia|]). apply NoDup_nil.
Qed.

Print Assumptions C47_build_from_clusterbasis.
Print Assumptions C47_delete.
Print Assumptions C47_build_delete.
Print Assumptions C47_basisproduct.
Print Assumptions C47_orthogonal.
