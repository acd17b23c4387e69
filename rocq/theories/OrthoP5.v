(** * Orthogonalisation of cluster bases: clusters with sons *)
From Coq Require Import Arith Lia List Bool Permutation Ring.
From Verif Require Import Fld Ord Prog Arr View Loop Line Spec Cluster Block Avector Amatrix AvectorP AmatrixP AmatrixP2 RkP Factor FactorSpec FactorP FactorP2 FactorP3 LrP
  Chol CholSpec CholP5 Qr QrSpec QrP QrP2 QrP3 QrP4 QrP7 QrP8 QrP10 Hmatrix HmSpec HmP Clusterbasis CbSpec CbP CbP2 Cbmgr CbmSpec CbmP CbmP2 CbmP3 Clusterop CopSpec OrthoP OrthoP2 OrthoP3 OrthoP4.
Import ListNotations.

Section P.
Context {K : fops} {G : ofops}.
Local Notation cbx := (cbasis G).
Local Notation cox := (clusterop G).
Implicit Types (m : mem K) (cb s : cbasis G) (D : nat -> Prop) (Ls X : list mat) (F f e : nat -> nat -> K) (o : option cox) (l : list cbx).

Lemma fold_k l a : fold_left (fun (x : nat) s => x + cb_k s) l a = a + nsum (length l) (at_ cb_k l).
Proof.
  revert a. induction l as [|s l IH]; intros a; cbn [fold_left length]; [cbn; lia|]. rewrite IH, nsum_head. cbn. rewrite Nat.add_assoc. reflexivity.
Qed.

Lemma NoDup_appr {A} (l l' : list A) : NoDup (l ++ l') -> NoDup l'.
Proof. induction l as [|a l IH]; [auto|]. cbn. intros HN. inversion HN. auto. Qed.
Lemma in_E s : In (cb_E s) (cbmats s). Proof. rewrite cbmats_E. right. left. reflexivity. Qed.
Lemma sons_E_neq l : NoDup (map mblk (flat_map cbmats l)) -> forall i j s s', nth_error l i = Some s -> nth_error l j = Some s' -> i <> j -> mblk (cb_E s) <> mblk (cb_E s').
Proof.
  induction l as [|a l IH]; intros HN i j s s' Hi Hj Hne; [destruct i; discriminate|]. cbn [flat_map] in HN. rewrite map_app in HN.
  assert (HX : forall s1, In s1 l -> mblk (cb_E a) <> mblk (cb_E s1)).
  { intros s1 Hs1 EE. eapply NoDup_appx; [exact HN|apply in_map, in_E|]. rewrite EE. apply in_map. apply in_flat_map. exists s1. split; [exact Hs1|apply in_E]. }
  destruct i as [|i], j as [|j]; cbn in Hi, Hj.
  - congruence.
  - injection Hi as <-. apply HX. eapply nth_error_In; exact Hj.
  - injection Hj as <-. intros EE. apply (HX s); [eapply nth_error_In; exact Hi|congruence].
  - eapply IH; [eapply NoDup_appr; exact HN|exact Hi|exact Hj|lia].
Qed.

(** ** Transfer matrices on top of each other *)
Lemma wp_fillV D m Vh l k0 Ls (g : cbx -> nat -> nat -> K) (Q : nat -> mem K -> Prop) : lm D m (Vh :: Ls) ->
  (forall s, In s l -> In (cb_E s) Ls /\ mrows (cb_E s) = cb_k s /\ mcols (cb_E s) = k0 /\ mval m (cb_E s) (g s)) ->
  mrows Vh = nsum (length l) (at_ cb_k l) -> mcols Vh = k0 ->
  (forall m', mval m' Vh (stack (map (fun s => (cb_k s, g s)) l)) -> lm D m' (Vh :: Ls) -> kb [mblk Vh] m m' -> Q (mrows Vh) m') ->
  wp TT TT (sons l (fun i s off => Vhat1 <- init_sub_amatrix Vh (cb_k s) off k0 0 ;; copy_amatrix false (cb_E s) Vhat1 ;;; Ret (off + cb_k s)) 0) m Q.
Proof.
  intros HL Hs Er Ec HQ. set (f := stack (map (fun s => (cb_k s, g s)) l)).
  assert (WV : mwf Vh) by apply (lm_own _ _ _ Vh HL (or_introl eq_refl)).
  apply (wp_sonsS (fun i off m1 => off = nsum i (at_ cb_k l) /\ lm D m1 (Vh :: Ls) /\ kb [mblk Vh] m m1 /\
    forall r q, r < off -> q < k0 -> get m1 (ma Vh r q) = Val (f r q))).
  - split; [reflexivity|]. split; [exact HL|]. split; [apply kb_refl|]. intros r q Hr. lia.
  - intros i s off m1 Hi (Eo & HL1 & K1 & HV). destruct (nth_in _ _ _ Hi) as [Hi1 Hi2]. destruct (Hs s Hi2) as (S1 & S2 & S3 & S4).
    assert (Hb : off + cb_k s <= mrows Vh). { rewrite Er, Eo. pose proof (nsum_in (at_ cb_k l) i (length l) Hi1) as HX. rewrite (at_nth cb_k l i s Hi) in HX. exact HX. }
    assert (NE : mblk (cb_E s) <> mblk Vh) by (apply (lm_neq _ _ _ _ _ HL); exact S1).
    apply wp_bind. apply wp_init_sub_amatrix; [exact Hb|lia|]. apply wp_bind.
    eapply (wp_copy_lm D m1 _ false (cb_E s) _ Vh (g s)); [exact HL1|left; reflexivity|apply mwf_subm; [exact WV|exact Hb]|apply inm_subm; [exact Hb|lia]|reflexivity| |exact NE|cbn; lia|cbn; lia|].
    { eapply mval_kb; [exact S4|exact K1|eapply kb_blk; [exact HL|right; exact S1]|]. intros [E|[]]. congruence. }
    intros m2 HB HL2 K2 Kk. cbn [tr] in HB. cbn [wp]. split; [cbn; rewrite (at_nth cb_k l i s Hi); lia|]. split; [exact HL2|].
    split; [eapply kb_trans; [exact K1|exact K2|auto|]; intros b [<-|[]]; left; left; reflexivity|].
    intros r q Hr Hq. destruct (Nat.lt_ge_cases r off) as [Hlt|Hge].
    + rewrite (proj2 Kk); [apply HV; assumption|]. intros (i1 & j1 & Hi' & Hj' & EE). rewrite ma_subm in EE. cbn in Hi', Hj'. apply ma_inj in EE; [lia|exact WV|lia|lia].
    + specialize (HB (r - off) q ltac:(cbn; lia) ltac:(cbn; lia)). rewrite ma_subm in HB. replace (off + (r - off)) with r in HB by lia. cbn [plus] in HB. rewrite HB. f_equal.
      unfold f. symmetry. etransitivity; [|apply (stack_at l cb_k g i s (r - off) q Hi); lia]. f_equal. lia.
  - intros off m1 (Eo & HL1 & K1 & HV). rewrite <- Er in Eo. subst off. apply HQ; [|exact HL1|exact K1]. intros r q Hr Hq. apply HV; lia.
Qed.

Lemma wp_readQ D m Qh l k Ls qm (Q : nat -> mem K -> Prop) : lm D m (Qh :: flat_map cbmats l ++ Ls) -> mval m Qh qm -> mrows Qh = nsum (length l) (at_ cb_k l) -> mcols Qh = k ->
  (forall s, In s l -> mrows (cb_E s) = cb_k s /\ mcols (cb_E s) = k) ->
  (forall m', (forall i s, nth_error l i = Some s -> mval m' (cb_E s) (fun r q => qm (nsum i (at_ cb_k l) + r) q)) -> lm D m' (Qh :: flat_map cbmats l ++ Ls) ->
     kb (map (fun s => mblk (cb_E s)) l) m m' -> Q (mrows Qh) m') ->
  wp TT TT (sons l (fun i s off => Qhat1 <- init_sub_amatrix Qh (cb_k s) off k 0 ;; passert (mrows (cb_E s) =? cb_k s) ;;; passert (mcols (cb_E s) =? k) ;;; copy_amatrix false Qhat1 (cb_E s) ;;; Ret (off + cb_k s)) 0) m Q.
Proof.
  intros HL HQm Er Ec Hs HQ.
  assert (HEn : forall s, In s l -> In (cb_E s) (Qh :: flat_map cbmats l ++ Ls)). { intros s Hs1. right. apply in_or_app. left. apply in_flat_map. exists s. split; [exact Hs1|apply in_E]. }
  assert (HND : NoDup (map mblk (flat_map cbmats l))). { destruct HL as (_ & HN & _). cbn [map] in HN. inversion HN as [|? ? _ HN']. subst. rewrite map_app in HN'. eapply NoDup_appl. exact HN'. }
  assert (HNQ : forall s, In s l -> mblk (cb_E s) <> mblk Qh). { intros s Hs1. apply (lm_neq _ _ _ _ _ HL). destruct (HEn s Hs1) as [HX|HX]; [|exact HX]. exfalso. pose proof (lm_nin _ _ _ _ HL) as HN. apply HN. rewrite HX. rewrite map_app. apply in_or_app. left. apply in_map. apply in_flat_map. exists s. split; [exact Hs1|apply in_E]. }
  apply (wp_sonsS (fun i off m1 => off = nsum i (at_ cb_k l) /\ lm D m1 (Qh :: flat_map cbmats l ++ Ls) /\ kb (map (fun s => mblk (cb_E s)) l) m m1 /\
    forall j s, j < i -> nth_error l j = Some s -> mval m1 (cb_E s) (fun r q => qm (nsum j (at_ cb_k l) + r) q))).
  - split; [reflexivity|]. split; [exact HL|]. split; [apply kb_refl|]. intros j s Hj. lia.
  - intros i s off m1 Hi (Eo & HL1 & K1 & HV). destruct (nth_in _ _ _ Hi) as [Hi1 Hi2]. destruct (Hs s Hi2) as (S1 & S2).
    assert (Hb : off + cb_k s <= mrows Qh). { rewrite Er, Eo. pose proof (nsum_in (at_ cb_k l) i (length l) Hi1) as HX. rewrite (at_nth cb_k l i s Hi) in HX. exact HX. }
    assert (HQ1 : mval m1 Qh qm). { eapply mval_kb; [exact HQm|exact K1|eapply kb_blk; [exact HL|left; reflexivity]|]. intros HX. apply in_map_iff in HX as (s1 & E1 & Hs1). apply (HNQ s1 Hs1). exact E1. }
    apply wp_bind. apply wp_init_sub_amatrix; [exact Hb|lia|].
    apply wp_bind, wp_passert; [apply Nat.eqb_eq; exact S1|]. apply wp_bind, wp_passert; [apply Nat.eqb_eq; exact S2|]. apply wp_bind.
    destruct (lm_own _ _ _ _ HL1 (HEn s Hi2)) as (_ & BE & WE & _).
    eapply (wp_copy_lm D m1 _ false _ (cb_E s) (cb_E s)); [exact HL1|apply HEn, Hi2|exact WE|auto|reflexivity|apply (mval_subm m1 Qh qm off (cb_k s) 0 k HQ1 Hb ltac:(lia))|cbn; intros EE; apply (HNQ s Hi2); symmetry; exact EE|cbn; lia|cbn; lia|].
    intros m2 HB HL2 K2 _. cbn [tr] in HB. cbn [wp]. split; [cbn; rewrite (at_nth cb_k l i s Hi); lia|]. split; [exact HL2|]. split.
    { eapply kb_trans; [exact K1|exact K2|auto|]. intros b [<-|[]]. left. apply in_map_iff. exists s. auto. }
    intros j s1 Hj Hj1. destruct (Nat.eq_dec j i) as [->|Hne].
    + assert (s1 = s) by congruence. subst s1 off. exact HB.
    + eapply mval_kb; [apply HV; [lia|exact Hj1]|exact K2|eapply kb_blk; [exact HL1|apply HEn; eapply nth_error_In; exact Hj1]|]. intros [EE|[]].
      apply (sons_E_neq l HND i j s s1 Hi Hj1); [congruence|exact EE].
  - intros off m1 (Eo & HL1 & K1 & HV). rewrite <- Er in Eo. subst off. apply HQ; [|exact HL1|exact K1]. intros i s Hi. apply HV; [apply nth_in in Hi; lia|exact Hi].
Qed.
End P.
