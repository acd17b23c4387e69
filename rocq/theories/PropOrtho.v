(** * Property C44: orthogonal cluster bases and basis weights *)
From Coq Require Import Arith Lia List Bool ZArith.
From Coq Require Rdefinitions Lra.
From Verif Require Import Fld Inst Ord OrdInst Prog Arr View Spec Loop Cluster Block Avector Amatrix AmatrixP2 Hmatrix HmSpec Chol CholSpec Qr QrSpec CholInst QrInst
  Clusterbasis CbSpec CbP CbP9 Cbmgr CbmSpec CbmP CbmP2 CbmP3 Clusterop CopSpec OrthoP OrthoP3 OrthoP4 OrthoP6 WeightP WeightP2 PropCb.
Import ListNotations.

Section C44.
Context {K : fops} {G : ofops} (L : field_laws K) (O : qops K) (H : qlaws O).
Implicit Types (m : mem K) (cb : cbasis G) (co : clusterop G).

(** ** Orthogonalisation.  For every cluster of the tree the new matrix has orthonormal columns, and
    the old matrix is the product of the new one and the matrix [R] recorded in the operator, if an
    operator is given ([orth_of]).  The transfer matrix of the root is multiplied by its [R].  Only the
    storage of the basis and the operator changes, and they still own all of it. *)
Theorem C44_ortho_clusterbasis : forall cb (o : option (clusterop G)) e m (D : nat -> Prop) Ls,
  cbok cb -> cbinit m cb -> mrows (cb_E cb) = cb_k cb -> mval m (cb_E cb) e ->
  (forall co, o = Some co -> cofor cb co) -> lm D m (cbmats cb ++ omats o ++ Ls) ->
  ends (ortho_clusterbasis O cb o) m (fun r m' =>
    let '(cb', o') := r in exists R,
      orth_of (exact_zero O) m m' cb cb' o' R /\ cbok cb' /\ cbinit m' cb' /\
      mrows (cb_E cb') = cb_k cb' /\ mcols (cb_E cb') = mcols (cb_E cb) /\ mval m' (cb_E cb') (mmul (cb_k cb) R e) /\
      (o' = None <-> o = None) /\ (forall co', o' = Some co' -> cofor cb' co') /\
      lm D m' (cbmats cb' ++ omats o' ++ Ls) /\
      keeps (fun a => In (fst a) (map mblk (cbmats cb ++ omats o)) \/ next m <= fst a) m m').
Proof.
  intros cb o e m D Ls H1 H2 H3 H4 H5 H6. apply wp_ends. eapply (wp_ortho L O H cb D o Ls m e); [exact H1|exact H3|exact H2|exact H4|exact H5|exact H6|].
  intros cb' o' R m' (A1 & A2 & A3 & A4 & A5 & A6 & A7) HL _ HK. exists R. repeat (split; [assumption|]).
  unfold oform in A7. destruct o as [co|], o' as [co'|]; try contradiction; (split; [split; intros; congruence|]); (split; [|split; [exact HL|exact HK]]); intros c Ec; [|discriminate].
  injection Ec as <-. apply A7.
Qed.

(** ** Weights.  For every cluster the operator holds a matrix [W] such that the matrix of the basis is
    the product of a matrix with orthonormal columns and [W] ([weight_of]).  The basis does not change. *)
Theorem C44_weight_clusterbasis : forall cb co m (D : nat -> Prop) Ls,
  cbok cb -> cbinit m cb -> cofor cb co -> lm D m (comats co ++ cbmats cb ++ Ls) ->
  ends (weight_clusterbasis_clusteroperator O cb co) m (fun co' m' =>
    weight_of (exact_zero O) m m' cb co' /\ cofor cb co' /\ co_t co' = co_t co /\
    lm D m' (comats co' ++ cbmats cb ++ Ls) /\ cbinit m' cb /\ (forall a, incb cb a -> get m' a = get m a) /\
    keeps (fun a => In (fst a) (map mblk (comats co)) \/ next m <= fst a) m m').
Proof.
  intros cb co m D Ls H1 H2 H3 H4. apply wp_ends. eapply (wp_weight L O H cb D co (cbmats cb ++ Ls)); [exact H1|exact H2|exact H3| |exact H4|].
  { intros A HA. apply in_or_app. left. apply mats0_in, HA. }
  intros co' m' A1 A2 A3 HL _ HK. assert (HS : forall a, incb cb a -> get m' a = get m a).
  { intros a Ha. apply (proj2 HK). apply incb_cbmats in Ha. intros [Hb|Hb].
    - destruct H4 as (_ & HN & _). rewrite !map_app in HN. apply (NoDup_appx _ _ _ HN Hb). apply in_or_app. left. exact Ha.
    - pose proof (lm_blk D m _ (fst a) H4) as Hlt. rewrite !map_app in Hlt. specialize (Hlt ltac:(apply in_or_app; right; apply in_or_app; left; exact Ha)). lia. }
  split; [exact A1|]. split; [exact A2|]. split; [exact A3|]. split; [exact HL|]. split; [|split; [exact HS|exact HK]].
  intros a Ha. rewrite (HS a Ha). apply H2, Ha.
Qed.
(** Weights have the same inner products as the basis, so that they can replace it in norms. *)
Theorem C44_weight_gram : forall (ex : Prop) m m' cb co, ex -> weight_of ex m m' cb co ->
  exists W, mval m' (co_C co) W /\
    forall i j, i < cb_k cb -> j < cb_k cb ->
      sum (cb_size cb) (fun p => fconj (cbmat m cb p i) * cbmat m cb p j)%F = sum (co_krow co) (fun r => fconj (W r i) * W r j)%F.
Proof.
  intros ex m m' cb co Hex HW. inversion HW as [? ? W Qm A1 A2 A3 A4 A5 A6 A7]; subst. exists W. split; [exact A3|]. intros i j Hi Hj.
  etransitivity; [|exact (orth_comp L _ _ _ (fun r => W r i) (fun r => W r j) A4)]. apply sum_ext. intros p Hp. rewrite !(A5 Hex) by assumption. reflexivity.
Qed.
(** The recorded factors have the same inner products as the old basis. *)
Theorem C44_ortho_gram : forall (ex : Prop) m m' cb cb' o R, ex -> orth_of ex m m' cb cb' o R ->
  forall i j, i < cb_k cb -> j < cb_k cb ->
    sum (cb_size cb) (fun p => fconj (cbmat m cb p i) * cbmat m cb p j)%F = sum (cb_k cb') (fun r => fconj (R r i) * R r j)%F.
Proof.
  intros ex m m' cb cb' o R Hex HO i j Hi Hj. inversion HO as [? ? ? ? A1 A2 A3 A4 A5 A6 A7]; subst.
  etransitivity; [|exact (orth_comp L _ _ _ (fun r => R r i) (fun r => R r j) A4)]. apply sum_ext. intros p Hp. rewrite !(A5 Hex) by assumption. reflexivity.
Qed.
End C44.

(** ** Example: a cluster with two leaves, where one leaf has more columns than rows *)
Definition oc (k o : nat) : cluster QcO := Cl k o [] 0 (anew 0) (anew 0) (Some 1) 0.
Definition ocr : cluster QcO := Cl 3 0 [oc 1 0; oc 2 1] 0 (anew 0) (anew 0) (Some 3) 0.
Definition oV0 : mat := Mat 0 0 1 1 2 true.
Definition oV1 : mat := Mat 1 0 2 2 1 true.
Definition oE0 : mat := Mat 2 0 2 2 2 true.
Definition oE1 : mat := Mat 3 0 1 1 2 true.
Definition oVr : mat := Mat 4 0 0 0 0 true.
Definition oEr : mat := Mat 5 0 2 2 0 true.
Definition ob0 : cbasis QcO := CB (CP [0] (oc 1 0)) 2 3 3 oV0 oE0 [] None.
Definition ob1 : cbasis QcO := CB (CP [1] (oc 2 1)) 1 3 3 oV1 oE1 [] None.
Definition ob : cbasis QcO := CB (CP [] ocr) 2 8 5 oVr oEr [ob0; ob1] None.
Definition oC0 : mat := Mat 6 0 0 0 2 true.
Definition oC1 : mat := Mat 7 0 0 0 1 true.
Definition oCr : mat := Mat 8 0 0 0 2 true.
Definition oo : clusterop QcO := CO (CP [] ocr) 0 2 oCr [CO (CP [0] (oc 1 0)) 0 2 oC0 []; CO (CP [1] (oc 2 1)) 0 1 oC1 []].
Definition obm : list (list Rf) :=
  [ map Rdefinitions.IZR [2; 3]%Z; map Rdefinitions.IZR [3; 4]%Z; map Rdefinitions.IZR [1; 0; 1; 1]%Z; map Rdefinitions.IZR [2; -1]%Z; []; []; []; []; [] ].

Lemma ob_ok : cbok ob.
Proof.
  apply cbok_node; try reflexivity; [discriminate| |].
  - intros s [<-|[<-|[]]]; (split; [|split; reflexivity]).
    + apply (cbok_leaf (CP [0] (oc 1 0)) 2); reflexivity.
    + apply (cbok_leaf (CP [1] (oc 2 1)) 1); reflexivity.
  - intros [|[|i]] s H; cbn in H; try (injection H as <-; reflexivity). destruct i; discriminate.
Qed.
Lemma ob_init : cbinit (mem_of obm) ob.
Proof.
  assert (HM : forall A a, mval (mem_of obm) A (mof obm A) -> inm A a -> exists v, get (mem_of obm) a = Val v).
  { intros A a H (i & j & Hi & Hj & ->). eexists. apply H; assumption. }
  intros a H. apply incb_inner in H; [|discriminate]. destruct H as (s & [<-|[<-|[]]] & [H|H]); try apply incb_leaf in H; refine (HM _ _ _ H); apply mval_of; reflexivity.
Qed.
Lemma oo_for : cofor ob oo.
Proof.
  apply cofor_intro; try reflexivity. intros [|[|i]] s c H1 H2; cbn in H1, H2; [| |destruct i; discriminate]; injection H1 as <-; injection H2 as <-; (apply cofor_intro; try reflexivity); intros [|i] s c H1 H2; discriminate.
Qed.
Example C44_hyps : field_laws Rf /\ qlaws (Rq (Rdefinitions.IZR 0)) /\ exact_zero (Rq (Rdefinitions.IZR 0)) /\
  let m := mem_of obm in let bs := cbmats ob ++ comats oo in
  cbok ob /\ cbinit m ob /\ mrows (cb_E ob) = cb_k ob /\ mval m (cb_E ob) (mof obm oEr) /\ cofor ob oo /\
  lm (fun b => In b (map mblk bs) \/ next m <= b) m (cbmats ob ++ omats (Some oo) ++ []) /\
  lm (fun b => In b (map mblk bs) \/ next m <= b) m (comats oo ++ cbmats ob ++ []) /\
  cb_k ob0 = 2 /\ cb_size ob0 = 1.
Proof.
  assert (HL : lm (fun b => In b (map mblk (cbmats ob ++ comats oo)) \/ next (mem_of obm) <= b) (mem_of obm) (cbmats ob ++ comats oo)).
  { apply lm_start.
    - apply Forall_forall. intros A HA. cbn in HA. decompose [or] HA; try contradiction; subst A;
      (split; [reflexivity|]; split; [apply Nat.ltb_lt; vm_compute; reflexivity|]; split; [unfold mwf; cbn; lia|]);
      first [(eapply mval_malloc; apply mval_of; reflexivity) | (intros i j Hi Hj; cbn in Hi, Hj; lia)].
    - cbn. repeat (apply NoDup_cons; [cbn; lia|]). apply NoDup_nil. }
  split; [exact Rf_field|]. split; [apply Rq_laws; Lra.lra|]. split; [exact (rw_sumsq Rr Rr_laws)|]. cbv zeta.
  split; [exact ob_ok|]. split; [exact ob_init|]. split; [reflexivity|]. split; [intros i j Hi Hj; cbn in Hj; lia|]. split; [exact oo_for|].
  split; [cbn [omats]; rewrite app_nil_r; exact HL|]. split; [|split; reflexivity]. rewrite app_nil_r. eapply lm_perm; [apply Permutation.Permutation_app_comm|exact HL].
Qed.

Print Assumptions C44_ortho_clusterbasis.
Print Assumptions C44_weight_clusterbasis.
Print Assumptions C44_weight_gram.
Print Assumptions C44_ortho_gram.
