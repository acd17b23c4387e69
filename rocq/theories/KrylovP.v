(** * Proofs about the Krylov methods: a calculus for programs working on vectors *)
From Coq Require Import Arith Lia List Bool Ring.
From Verif Require Import Fld Prog View Spec Loop Avector AvectorP AmatrixP2 Factor Lr Chol Qr Krylov KrylovSpec.
Import ListNotations.

Section KrylovP.
Context {K : fops} (L : ring_laws K).
Add Ring Kring : (rl_ring K L).
Implicit Types (m : mem K) (F : addr -> Prop) (x y : vec) (vs : list vec).

Definition TT : addr -> Prop := fun _ => True.
Notation WP := (wp TT TT).

Lemma run_wp {A} (p : prog K A) : forall (R W : addr -> Prop) m (Q : A -> mem K -> Prop) a m',
  (forall c, W c) -> run p m = Ok (a, m') -> Q a m' -> wp R W p m Q.
Proof.
  induction p as [a|e|a k IH|a v k IH|n k IH|b k IH]; cbn; intros R W m Q r m' HW E HQ.
  - injection E as -> ->. exact HQ.
  - discriminate.
  - destruct (get m a) as [| |v] eqn:G; try discriminate. split; [right; apply HW|]. exists v. split; [reflexivity|]. eauto.
  - destruct (get m a) eqn:G; try discriminate; (split; [apply HW|split; [congruence|eauto]]).
  - eapply IH; [|exact E|exact HQ]. auto.
  - destruct (Nat.ltb_spec b (next m)); [|discriminate]. split; [assumption|]. split; [auto|]. eauto.
Qed.
Lemma ends_wp {A} (p : prog K A) m (Q : A -> mem K -> Prop) : ends p m Q -> WP p m Q.
Proof. intros (a & m' & E & HQ). eapply run_wp; [intros; exact I|exact E|exact HQ]. Qed.
Lemma WP_new {A} n (k : nat -> prog K A) m (Q : A -> mem K -> Prop) : WP (k (next m)) (alloc m n) Q -> WP (New n k) m Q.
Proof. intros H. cbn. eapply wp_mono; [| | |exact H]; cbn; auto. Qed.
Lemma TT_r P : rdok TT TT P. Proof. intros a _. left. exact I. Qed.
Lemma TT_w P : wrok TT P. Proof. intros a _. exact I. Qed.

Definition vcell m x (o : option (nat -> K)) : Prop :=
  match o with Some f => vval m x f | None => valloc m x end.

(** Started in [m0], the program has changed only the vectors [vs]; they have the values [vals]. *)
Definition vst (I : mem K -> Prop) m0 vs m (vals : list (option (nat -> K))) : Prop :=
  I m /\ keeps (inany vs) m0 m /\ Forall2 (vcell m) vs vals.

Fixpoint setn {A} (j : nat) (v : A) (l : list A) : list A :=
  match l, j with
  | [], _ => []
  | _ :: l', 0 => v :: l'
  | a :: l', S j' => a :: setn j' v l'
  end.

Variable F : addr -> Prop.
Variable I : mem K -> Prop.
Hypothesis Ikeep : forall m m' (W : addr -> Prop), I m -> keeps W m m' -> disj F W -> I m'.
Variable vs : list vec.
Hypothesis Hsep : separate F vs.

Lemma sep_F l x : separate F l -> In x l -> disj F (inv x).
Proof. induction l as [|y l IH]; cbn; [tauto|]. intros (H1 & H2 & H3) [->|H]; auto. Qed.
Lemma sep_ne l i j x y : separate F l -> nth_error l i = Some x -> nth_error l j = Some y -> i <> j -> disj (inv x) (inv y).
Proof.
  revert i j. induction l as [|z l IH]; intros i j; [destruct i; discriminate|].
  intros (H1 & H2 & H3) Hi Hj N. destruct i as [|i], j as [|j]; cbn in *; [lia| | |].
  - injection Hi as ->. apply H2. eapply nth_error_In; eauto.
  - injection Hj as ->. apply disj_sym. apply H2. eapply nth_error_In; eauto.
  - eapply IH; eauto.
Qed.

Lemma cell_keeps m m' W x o : vcell m x o -> keeps W m m' -> disj (inv x) W -> vcell m' x o.
Proof. destruct o; cbn; intros; [eapply vval_keeps|eapply valloc_keeps]; eauto. Qed.
Lemma cell_alloc m x o : vcell m x o -> valloc m x.
Proof. destruct o; cbn; [apply vval_alloc|auto]. Qed.

Lemma cells_get m l vals i x o : Forall2 (vcell m) l vals -> nth_error l i = Some x -> nth_error vals i = Some o -> vcell m x o.
Proof.
  intros H. revert i. induction H as [|y o' l vals Hc H IH]; intros [|i] Hx Ho; try discriminate; cbn in *.
  - injection Hx as ->. injection Ho as ->. exact Hc.
  - eauto.
Qed.
Lemma vst_get m0 m vals i x f : vst I m0 vs m vals -> nth_error vs i = Some x -> nth_error vals i = Some (Some f) -> vval m x f.
Proof. intros (_ & _ & H) Hx Hf. exact (cells_get _ _ _ _ _ _ H Hx Hf). Qed.
Lemma vst_all m0 m vals i x o : vst I m0 vs m vals -> nth_error vs i = Some x -> nth_error vals i = Some o -> valloc m x.
Proof. intros (_ & _ & H) Hx Hf. exact (cell_alloc _ _ _ (cells_get _ _ _ _ _ _ H Hx Hf)). Qed.

Lemma cells_set m m' y : forall l vals j o, separate F l -> nth_error l j = Some y ->
  Forall2 (vcell m) l vals -> keeps (inv y) m m' -> vcell m' y o -> Forall2 (vcell m') l (setn j o vals).
Proof.
  induction l as [|z l IH]; intros vals j o Hs Hj HV Hk Hc; [destruct j; discriminate|].
  destruct vals as [|o1 vals]; [inversion HV|]. assert (Hz : vcell m z o1) by (inversion HV; assumption).
  assert (HV' : Forall2 (vcell m) l vals) by (inversion HV; assumption). clear HV.
  destruct Hs as (S1 & S2 & S3). destruct j as [|j]; cbn in *.
  - injection Hj as ->. constructor; [exact Hc|].
    clear - S2 S3 Hk HV'. revert S2. induction HV' as [|z o' l vals Hz HV IH]; intros S2; constructor.
    + eapply cell_keeps; [exact Hz|exact Hk|]. apply disj_sym. apply S2. left. reflexivity.
    + apply IH; [apply S3|]. intros w Hw. apply S2. right. exact Hw.
  - constructor; [|eapply IH; eauto]. eapply cell_keeps; [exact Hz|exact Hk|]. apply S2. eapply nth_error_In; eauto.
Qed.

Lemma vst_set m0 m m' vals j y o : vst I m0 vs m vals -> nth_error vs j = Some y ->
  keeps (inv y) m m' -> vcell m' y o -> vst I m0 vs m' (setn j o vals).
Proof.
  intros (H1 & H2 & H3) Hj Hk Hc. assert (Hy : In y vs) by (eapply nth_error_In; eauto). split; [|split].
  - eapply Ikeep; [exact H1|exact Hk|]. eapply sep_F; eauto.
  - eapply keeps_trans; [exact H2|]. eapply keeps_mono; [|exact Hk]. intros a Ha. exists y. auto.
  - eapply cells_set; eauto.
Qed.

Lemma vst_ext m0 m vals vals' : vst I m0 vs m vals ->
  Forall2 (fun x p => match fst p, snd p with Some f, Some g => forall i, i < vdim x -> f i = g i | None, None => True | _, _ => False end)
    vs (combine vals vals') -> length vals = length vals' -> vst I m0 vs m vals'.
Proof.
  intros (H1 & H2 & H3) HF HL. split; [exact H1|]. split; [exact H2|]. clear - H3 HF HL.
  revert vals' HF HL. induction H3 as [|x o l vals Hc H IH]; intros [|o' vals'] HF HL; try discriminate; constructor.
  - inversion HF; subst. cbn in *. destruct o, o'; try contradiction; cbn in *; [|exact Hc]. eapply vval_ext; [exact Hc|auto].
  - inversion HF; subst. apply IH; [assumption|]. cbn in HL. lia.
Qed.

(** Rules; [i] and [j] are positions in [vs]. *)
Lemma w_clear m0 m vals j y o (Q : unit -> mem K -> Prop) : vst I m0 vs m vals ->
  nth_error vs j = Some y -> nth_error vals j = Some o ->
  (forall m', vst I m0 vs m' (setn j (Some (fun _ => f0)) vals) -> Q tt m') -> WP (clear_avector y) m Q.
Proof.
  intros H Hy Ho HQ. eapply wp_clear_avector; [eapply vst_all; eauto|apply TT_w|].
  intros m' Hv Hk. apply HQ. eapply vst_set; eauto.
Qed.
Lemma w_copy m0 m vals i j x y f o (Q : unit -> mem K -> Prop) : vst I m0 vs m vals ->
  nth_error vs i = Some x -> nth_error vs j = Some y -> nth_error vals i = Some (Some f) -> nth_error vals j = Some o ->
  i <> j -> vdim x = vdim y ->
  (forall m', vst I m0 vs m' (setn j (Some f) vals) -> Q tt m') -> WP (copy_avector x y) m Q.
Proof.
  intros H Hx Hy Hf Ho Hij Hd HQ. eapply wp_copy_avector; [eapply vst_get; eauto|eapply vst_all; eauto|exact Hd|eapply sep_ne; eauto|apply TT_r|apply TT_w|].
  intros m' Hv Hk. apply HQ. eapply vst_set; eauto.
Qed.
Lemma w_scale m0 m vals j y f alpha (Q : unit -> mem K -> Prop) : vst I m0 vs m vals ->
  nth_error vs j = Some y -> nth_error vals j = Some (Some f) ->
  (forall m', vst I m0 vs m' (setn j (Some (fun l => f l * alpha)%F) vals) -> Q tt m') -> WP (scale_avector alpha y) m Q.
Proof.
  intros H Hy Ho HQ. eapply wp_scale_avector; [eapply vst_get; eauto|apply TT_w|].
  intros m' Hv Hk. apply HQ. eapply vst_set; eauto.
Qed.
Lemma w_add m0 m vals i j x y f g alpha (Q : unit -> mem K -> Prop) : vst I m0 vs m vals ->
  nth_error vs i = Some x -> nth_error vs j = Some y -> nth_error vals i = Some (Some f) -> nth_error vals j = Some (Some g) ->
  i <> j -> vdim x = vdim y ->
  (forall m', vst I m0 vs m' (setn j (Some (fun l => g l + alpha * f l)%F) vals) -> Q tt m') -> WP (add_avector alpha x y) m Q.
Proof.
  intros H Hx Hy Hf Hg Hij Hd HQ.
  eapply wp_add_avector; [eapply vst_get; eauto|eapply vst_get; [exact H|exact Hy|exact Hg]|lia|eapply sep_ne; eauto|apply TT_r|apply TT_w|].
  intros m' Hv Hk. apply HQ. eapply vst_set; [exact H|exact Hy|exact Hk|]. cbn. eapply vval_ext; [exact Hv|].
  intros l Hl. cbv beta. destruct (Nat.ltb_spec l (vdim x)); [reflexivity|lia].
Qed.
Lemma w_dot m0 m vals i j x y f g n (Q : K -> mem K -> Prop) : vst I m0 vs m vals ->
  nth_error vs i = Some x -> nth_error vs j = Some y -> nth_error vals i = Some (Some f) -> nth_error vals j = Some (Some g) ->
  vdim x = n -> vdim y = n -> Q (dot n f g) m -> WP (dotprod_avector x y) m Q.
Proof.
  intros H Hx Hy Hf Hg Hd Hd' HQ. eapply wp_dotprod_avector; [eapply vst_get; eauto|eapply vst_get; [exact H|exact Hy|exact Hg]|lia|apply TT_r|apply TT_r|].
  rewrite Hd. exact HQ.
Qed.
Lemma w_norm2 m0 m vals sq i x f n (Q : K -> mem K -> Prop) : vst I m0 vs m vals ->
  nth_error vs i = Some x -> nth_error vals i = Some (Some f) -> vdim x = n -> Q (sq (dot n f f)) m -> WP (norm2_avector sq x) m Q.
Proof.
  intros H Hx Hf Hd HQ. eapply wp_norm2_avector; [eapply vst_get; eauto|apply TT_r|]. rewrite Hd. exact HQ.
Qed.

Lemma w_ev ev r c M m0 m vals i j x y f g alpha (Q : unit -> mem K -> Prop) : op_ok ev r c M F I -> vst I m0 vs m vals ->
  nth_error vs i = Some x -> nth_error vs j = Some y -> nth_error vals i = Some (Some f) -> nth_error vals j = Some (Some g) ->
  i <> j -> vdim x = c -> vdim y = r ->
  (forall m', vst I m0 vs m' (setn j (Some (fun l => g l + alpha * mvec c M f l)%F) vals) -> Q tt m') -> WP (ev alpha x y) m Q.
Proof.
  intros Ho H Hx Hy Hf Hg Hij Hd Hd' HQ. apply ends_wp.
  destruct (op_ev _ _ _ _ _ _ Ho alpha x y f g m) as ([] & m' & E & Hv & Hk);
    [apply H|eapply vst_get; eauto|eapply vst_get; [exact H|exact Hy|exact Hg]|exact Hd|exact Hd'|eapply sep_ne; eauto|
     eapply sep_F; [exact Hsep|eapply nth_error_In; exact Hy]|].
  exists tt, m'. split; [exact E|]. apply HQ. eapply vst_set; eauto.
Qed.
(** [clear(y); addeval(1.0, x, y)] *)
Lemma w_ev0 {A} (k : prog K A) ev r c M m0 m vals i j x y f o (Q : A -> mem K -> Prop) : op_ok ev r c M F I -> vst I m0 vs m vals ->
  nth_error vs i = Some x -> nth_error vs j = Some y -> nth_error vals i = Some (Some f) -> nth_error vals j = Some o ->
  i <> j -> vdim x = c -> vdim y = r ->
  (forall m', vst I m0 vs m' (setn j (Some (mvec c M f)) vals) -> WP k m' Q) ->
  WP (clear_avector y ;;; ev f1 x y ;;; k) m Q.
Proof.
  intros Ho H Hx Hy Hf Hg Hij Hd Hd' HQ. apply wp_bind. eapply wp_clear_avector; [eapply vst_all; eauto|apply TT_w|].
  intros m1 Hv1 Hk1. assert (H1 : vst I m0 vs m1 (setn j (Some (fun _ => f0)) vals)) by (eapply vst_set; eauto).
  apply wp_bind, ends_wp.
  destruct (op_ev _ _ _ _ _ _ Ho f1 x y f (fun _ => f0) m1) as ([] & m' & E & Hv & Hk);
    [apply H1| |exact Hv1|exact Hd|exact Hd'|eapply sep_ne; eauto|
     eapply sep_F; [exact Hsep|eapply nth_error_In; exact Hy]|].
  { eapply vval_keeps; [eapply vst_get; [exact H|exact Hx|exact Hf]|exact Hk1|]. eapply sep_ne; eauto. }
  exists tt, m'. split; [exact E|]. apply HQ. eapply vst_set; [exact H|exact Hy|eapply keeps_trans; [exact Hk1|exact Hk]|].
  cbn. eapply vval_ext; [exact Hv|]. intros l Hl. cbv beta. ring.
Qed.
Lemma w_pc pc n N m0 m vals j y f (Q : unit -> mem K -> Prop) : pc_ok pc n N F I -> vst I m0 vs m vals ->
  nth_error vs j = Some y -> nth_error vals j = Some (Some f) -> vdim y = n ->
  (forall m', vst I m0 vs m' (setn j (Some (mvec n N f)) vals) -> Q tt m') -> WP (pc y) m Q.
Proof.
  intros Ho H Hy Hf Hd HQ. apply ends_wp.
  destruct (pc_ev _ _ _ _ _ Ho y f m) as ([] & m' & E & Hv & Hk);
    [apply H|eapply vst_get; eauto|exact Hd|eapply sep_F; [exact Hsep|eapply nth_error_In; exact Hy]|].
  exists tt, m'. split; [exact E|]. apply HQ. eapply vst_set; eauto.
Qed.
Lemma w_may pc n N m0 m vals j y f (Q : unit -> mem K -> Prop) : prcd_ok pc n N F I -> vst I m0 vs m vals ->
  nth_error vs j = Some y -> nth_error vals j = Some (Some f) -> vdim y = n ->
  (forall m', vst I m0 vs m' (setn j (Some (mvec n N f)) vals) -> Q tt m') -> WP (may_prcd pc y) m Q.
Proof.
  intros Ho H Hy Hf Hd HQ. destruct pc as [pc|]; cbn in *.
  - eapply w_pc; eauto.
  - destruct Ho as (-> & _). apply HQ. eapply vst_set; [exact H|exact Hy|apply keeps_refl|]. cbn.
    eapply vval_ext; [eapply vst_get; eauto|]. intros l Hl. symmetry. unfold mvec, idf. rewrite (sum_single L _ l).
    + rewrite Nat.eqb_refl. ring.
    + lia.
    + intros k _ Nk. destruct (Nat.eqb_spec l k); [congruence|ring].
Qed.
End KrylovP.
