(** * Cluster operators: construction and deletion *)
From Coq Require Import Arith Lia List Bool Permutation.
From Verif Require Import Fld Ord Prog Arr View Loop Spec Cluster Block BlockP Avector Amatrix AmatrixP AmatrixP2 RkP Hmatrix HmSpec HmP Clusterbasis CbSpec CbP CbP2
  Cbmgr CbmSpec CbmP CbmP2 CbmP3 Chol Qr Clusterop CopSpec OrthoP OrthoP3 OrthoP4 CopP.
Import ListNotations.

Section P.
Context {K : fops} {G : ofops}.
Local Notation cbx := (cbasis G).
Local Notation cox := (clusterop G).
Implicit Types (m : mem K) (cb s : cbasis G) (D : nat -> Prop) (Ls X : list mat) (l : list cbx) (co c : cox) (cl : list cox).

(** ** Deletion *)
Fixpoint codel_sons cl : prog K unit := match cl with [] => Ret tt | s :: l' => del_clusteroperator s ;;; codel_sons l' end.
Lemma codel_eq t r k C cl : del_clusteroperator (CO t r k C cl) = (codel_sons cl ;;; uninit_amatrix C : prog K unit).
Proof. reflexivity. Qed.
Lemma wp_codel co : forall D m Ls (Q : unit -> mem K -> Prop), lm D m (comats co ++ Ls) ->
  (forall m', lm D m' Ls -> keeps (fun a => In (fst a) (map mblk (comats co))) m m' -> Q tt m') ->
  wp TT TT (del_clusteroperator co) m Q.
Proof.
  induction co as [co IH] using co_rect'. intros D m Ls Q HL HQ. destruct co as [t r k C l]. cbn [co_son] in IH. rewrite codel_eq.
  assert (HS : forall (l' : list cox) D' m0 Ls' (Q' : unit -> mem K -> Prop), incl l' l -> lm D' m0 (flat_map comats l' ++ Ls') ->
    (forall m', lm D' m' Ls' -> keeps (fun a => In (fst a) (map mblk (flat_map comats l'))) m0 m' -> Q' tt m') -> wp TT TT (codel_sons l') m0 Q').
  { induction l' as [|s l' IHl]; intros D' m0 Ls' Q' Hi H0 HQ'; cbn [codel_sons].
    - cbn. apply HQ'; [exact H0|apply keeps_refl].
    - apply wp_bind. cbn [flat_map] in H0. rewrite <- app_assoc in H0. apply (IH s (Hi s (or_introl eq_refl)) D' m0 (flat_map comats l' ++ Ls') _ H0).
      intros m1 H1 K1. apply (IHl D' m1 Ls'); [intros x Hx; apply Hi; right; exact Hx|exact H1|]. intros m2 H2 K2. apply HQ'; [exact H2|].
      cbn [flat_map]. eapply keeps_trans; (eapply keeps_mono; [|eassumption]); intros a; rewrite map_app, in_app_iff; auto. }
  apply wp_bind. cbn [comats app] in HL. apply (HS l D m (C :: Ls)); [apply incl_refl|eapply lm_perm; [|exact HL]; perm|].
  intros m1 H1 K1. eapply wp_uninit_lm; [exact H1|]. intros m2 H2 K2. apply HQ; [exact H2|].
  cbn [comats map In]. eapply keeps_trans; (eapply keeps_mono; [|eassumption]); intros a; cbn; intros E'; auto.
Qed.

(** ** Construction for the clusters of a basis *)
Definition cobuild_sons : nat -> list cbx -> prog K (list cox) :=
  fix go n l {struct l} := match l, n with
   | _, 0 => Ret []
   | s :: l', S n' => s1 <- build_from_clusterbasis_clusteroperator s ;; r <- go n' l' ;; Ret (s1 :: r)
   | [], S _ => Fail EBounds
   end.
Lemma cobuild_eq t k kt kb V E l Z : build_from_clusterbasis_clusteroperator (CB t k kt kb V E l Z : cbx) =
  (co <- new_clusteroperator t ;; co <- resize_clusteroperator co 0 k ;; l' <- cobuild_sons (match l with [] => 0 | _ => cp_sons t end) l ;; Ret (co_setsons co l') : prog K cox).
Proof. reflexivity. Qed.

(** The operator has the clusters of the basis. *)
Lemma prfor_cofor cb : forall co, prfor cb cb co -> cofor cb co.
Proof.
  induction cb as [cb IH] using cb_rect'. intros co Hp. destruct (prfor_inv _ _ _ Hp) as (T1 & T2 & R1 & R2 & HE & HN & HF). constructor; [exact R1|exact R2| |].
  - destruct (co_son co) as [|x y] eqn:E; [destruct (HE eq_refl) as [->| ->]; reflexivity|]. destruct (HN ltac:(discriminate)) as [-> _]. reflexivity.
  - intros i s c Hs Hc. apply IH; [eapply nth_error_In; exact Hs|]. eapply HF; eassumption.
Qed.
Lemma prfor_shape cb : forall cb2 co, prfor cb cb co -> cshape cb cb2 -> prfor cb cb2 co.
Proof.
  induction cb as [cb IH] using cb_rect'. intros cb2 co Hp Hs. destruct (prfor_inv _ _ _ Hp) as (T1 & T2 & R1 & R2 & HE & HN & HF). inversion Hs as [? ? S1 S2 S3]; subst.
  constructor; [exact T1|congruence|exact R1|exact R2| | |].
  - intros E. left. destruct (HE E) as [E1|E1]; exact E1.
  - intros E. destruct (HN E) as [E1 _]. split; [exact E1|congruence].
  - intros i s1 s2 p H1 H2 H3. apply IH; [eapply nth_error_In; exact H1|eapply HF; eassumption|eapply S3; eassumption].
Qed.

Lemma wp_cobuild cb : cbfull cb -> forall D m Ls (Q : cox -> mem K -> Prop), lm D m Ls ->
  (forall co m', prfor cb cb co -> co_krow co = 0 -> co_kcol co = cb_k cb -> lm D m' (comats co ++ Ls) -> (forall b, In b (map mblk (comats co)) -> next m <= b) ->
     kb [] m m' -> Q co m') ->
  wp TT TT (build_from_clusterbasis_clusteroperator cb) m Q.
Proof.
  induction cb as [cb IH] using cb_rect'. intros Hfull D m Ls Q HL HQ. destruct cb as [t k kt kb0 V E l Z]. rewrite cobuild_eq. cbn [cb_son] in IH. set (cb := CB t k kt kb0 V E l Z) in *.
  unfold new_clusteroperator. apply wp_bind, wp_bind. eapply wp_init_kb; [exact HL|]. intros C0 m1 EC HL1 K1. cbn [wp]. pose proof (kb_next _ _ _ K1) as M1.
  assert (BC : mblk C0 = next m) by (rewrite EC; reflexivity).
  apply wp_bind. eapply wp_resize_co; [exact HL1|rewrite EC; reflexivity|rewrite EC; reflexivity|]. clear EC. intros C m2 E1 E2 HL2 HB K2. pose proof (kb_next _ _ _ K2) as M2.
  assert (BC2 : next m <= mblk C) by (destruct HB; lia).
  assert (Y2 : kb [] m m2) by (eapply kb_trans; [exact K1|exact K2|auto|intros b [<-|[]]; right; lia]).
  assert (Hn : match l with [] => 0 | _ :: _ => cp_sons t end = length l).
  { destruct l as [|s0 l0] eqn:El; [reflexivity|]. apply (Hfull cb); [constructor|discriminate]. }
  rewrite Hn.
  assert (HS : forall l2 (bs : list cox) l1 m3 (Q' : list cox -> mem K -> Prop), l = l1 ++ l2 -> Forall2 (fun s c => prfor s s c) l1 bs -> lm D m3 (flat_map comats bs ++ C :: Ls) ->
     (forall b, In b (map mblk (flat_map comats bs)) -> next m <= b) -> kb [] m m3 ->
     (forall bs2 m4, Forall2 (fun s c => prfor s s c) l (bs ++ bs2) -> lm D m4 (flat_map comats (bs ++ bs2) ++ C :: Ls) -> (forall b, In b (map mblk (flat_map comats (bs ++ bs2))) -> next m <= b) -> kb [] m m4 -> Q' bs2 m4) ->
     wp TT TT (cobuild_sons (length l2) l2) m3 Q').
  { induction l2 as [|s l2 IHl]; intros bs l1 m3 Q' El HF HL3 HB3 K3 HQ'.
    - change (Q' [] m3). rewrite app_nil_r in El. subst l1. apply HQ'; rewrite ?app_nil_r; assumption.
    - cbn [cobuild_sons length]. fold cobuild_sons. assert (Hin : In s l) by (rewrite El; apply in_elt). pose proof (kb_next _ _ _ K3) as M3.
      apply wp_bind. eapply (IH s Hin); [intros c Hc; apply Hfull; eapply cbdesc_son; [exact Hin|exact Hc]|exact HL3|]. intros c m4 P1 _ _ HL4 HB4 K4. pose proof (kb_next _ _ _ K4) as M4.
      apply wp_bind. eapply (IHl (bs ++ [c]) (l1 ++ [s])).
      + rewrite El, <- app_assoc. reflexivity.
      + apply Forall2_app; [exact HF|]. constructor; [exact P1|constructor].
      + eapply lm_perm; [|exact HL4]. rewrite flat_map_app. perm.
      + intros b Hb. rewrite flat_map_app, map_app in Hb. apply in_app_or in Hb as [Hb|Hb]; [apply HB3, Hb|]. cbn [flat_map] in Hb. rewrite app_nil_r in Hb. specialize (HB4 b Hb). lia.
      + eapply kb_trans; [exact K3|exact K4|auto|intros b []].
      + intros bs2 m5 X1 X2 X3 X4. rewrite <- app_assoc in X1, X2, X3. cbn [wp]. apply HQ'; assumption. }
  apply wp_bind. eapply (HS l [] []); [reflexivity|constructor|exact HL2|intros b []|exact Y2|]. cbn [app]. intros cl m3 HF HL3 HB3 K3. cbn [wp co_setsons].
  apply Forall2_nth in HF as (F1 & F2). apply HQ.
  - constructor; cbn [co_t co_C co_krow co_kcol co_son]; auto.
    + intros ->. left. cbn. destruct l; [reflexivity|discriminate].
    + intros i s1 s2 p H1 H2 H3. assert (s2 = s1) by congruence. subst s2. apply (F2 i s1 p H1 H3).
  - reflexivity.
  - reflexivity.
  - cbn [comats]. eapply lm_perm; [|exact HL3]. perm.
  - cbn [comats map]. intros b [<-|Hb]; [exact BC2|apply HB3, Hb].
  - exact K3.
Qed.
End P.
