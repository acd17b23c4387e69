(** * Cross approximation with full pivoting: the loop *)
From Coq Require Import Arith Lia List Bool Ring.
From Verif Require Import Fld Prog Arr View Spec Loop FactorSpec FactorP Qr QrP2 Aca AcaSpec AcaP.
Import ListNotations.

Lemma rok_aswap (p : arr nat) n f k q (Q : arr nat -> Prop) : aval p n f -> k < n -> q < n ->
  (forall p', aval p' n (fun x => f (swapc k q x)) -> Q p') -> rok (aswap p k q) Q.
Proof.
  intros Hp Hk Hq HQ. unfold aswap. rewrite (aval_get _ _ _ _ Hp Hk). cbn [rbind]. rewrite (aval_get _ _ _ _ Hp Hq). cbn [rbind].
  apply rok_bind. eapply rok_aset; [exact Hp|exact Hk|]. intros p1 H1. eapply rok_aset; [exact H1|exact Hq|].
  intros p2 H2. apply HQ. eapply aval_ext; [exact H2|]. intros i Hi. unfold afupd, swapc. bsplit; subst; reflexivity.
Qed.

Lemma rok_rmap_aget (p : arr nat) n (P : nat -> Prop) f l (Q : list nat -> Prop) : aprt p n P f ->
  (forall i, In i l -> i < n /\ P i) -> Q (map f l) -> rok (rmap (aget p) l) Q.
Proof.
  intros Hp. revert Q. induction l as [|x l IH]; intros Q Hl HQ; cbn; [exact HQ|].
  destruct (Hl x) as [Hx Hx']; [left; reflexivity|].
  rewrite (aprt_get _ _ _ _ _ Hp Hx Hx'). cbn [rbind]. apply rok_bind. apply IH; [intros i Hi; apply Hl; right; exact Hi|]. exact HQ.
Qed.

Section AcaP2.
Context {K : fops} (L : field_laws K) (gt : K -> K -> bool) (GL : gt_laws gt).
Notation RL := (fl_ring K L).
Add Ring KringA2 : (rl_ring K (fl_ring K L)).
Implicit Types (m : mem K) (R W : addr -> Prop) (a : mat) (f F G : nat -> nat -> K).

Lemma gl_max (x M y : K) : gt x M = false -> gt y M = true -> gt x y = false.
Proof. intros H1 H2. eapply (gl_trans gt GL); [exact H1|apply (gl_asym gt GL); exact H2]. Qed.

Definition found (k r c : nat) F (P : nat -> nat -> Prop) (s : K * nat * nat) : Prop :=
  (forall i j, k <= i < r -> k <= j < c -> P i j -> gt (abssqr (F i j)) (fst (fst s)) = false) /\
  (fst (fst s) = f0 \/ (k <= snd (fst s) < r /\ k <= snd s < c /\ fst (fst s) = abssqr (F (snd (fst s)) (snd s)))).

Lemma wp_aca_search R W a k p q F m (Q : K * nat * nat -> mem K -> Prop) :
  mval m a F -> rdok R W (inm a) ->
  (forall s, found k (mrows a) (mcols a) F (fun _ _ => True) s -> Q s m) ->
  wp R W (aca_search gt a (mrows a) (mcols a) k p q) m Q.
Proof.
  intros HA Hr HQ. unfold aca_search.
  apply (wp_forS (fun j s m1 => m1 = m /\ found k (mrows a) (mcols a) F (fun _ j' => j' < j) s)).
  - split; [reflexivity|]. split; [intros; lia|left; reflexivity].
  - intros j s m1 Hj [-> HF].
    apply (wp_forS (fun i s m1 => m1 = m /\ found k (mrows a) (mcols a) F (fun i' j' => j' < j \/ (j' = j /\ i' < i)) s)).
    + split; [reflexivity|]. destruct HF as [H1 H2]. split; [|exact H2]. intros i j' Hi Hj' HP. apply H1; auto; lia.
    + intros i s1 m1 Hi [-> [H1 H2]]. apply wp_bind. eapply wp_mload; [exact HA|lia|lia|exact Hr|]. cbn [wp]. split; [reflexivity|].
      destruct (gt (abssqr (F i j)) (fst (fst s1))) eqn:E; split; cbn [fst snd].
      * intros i' j' Hi' Hj' HP. destruct (Nat.eq_dec j' j) as [->|N]; [destruct (Nat.eq_dec i' i) as [->|N]|].
        -- apply (gl_irr gt GL).
        -- eapply gl_max; [apply H1; auto; lia|exact E].
        -- eapply gl_max; [apply H1; auto; lia|exact E].
      * right. repeat split; lia.
      * intros i' j' Hi' Hj' HP. destruct (Nat.eq_dec j' j) as [->|N]; [destruct (Nat.eq_dec i' i) as [->|N]|]; auto; apply H1; auto; lia.
      * exact H2.
    + intros s1 m1 [-> [H1 H2]]. split; [reflexivity|]. split; [|exact H2]. intros i' j' Hi' Hj' HP. apply H1; auto; lia.
  - intros s m1 [-> [H1 H2]]. apply HQ. split; [|exact H2]. intros i j Hi Hj _. apply H1; auto; lia.
Qed.

Lemma wp_aca_swapcols R W a k q F m (Q : unit -> mem K -> Prop) :
  mwf a -> mval m a F -> k < mcols a -> q < mcols a -> wrok W (inm a) ->
  (forall m', mval m' a (fun i j => F i (swapc k q j)) -> keeps (inm a) m m' -> Q tt m') ->
  wp R W (aca_swapcols a (mrows a) k q) m Q.
Proof.
  intros Hwf HA Hk Hq Hw HQ. unfold aca_swapcols.
  assert (Hr : rdok R W (inm a)) by (apply rdok_w; exact Hw).
  apply (wp_for (fun i m1 => mval m1 a (fun i' j => if i' <? i then F i' (swapc k q j) else F i' j) /\ keeps (inm a) m m1)).
  - split; [|apply keeps_refl]. eapply mval_ext; [exact HA|]. intros i j _ _. cbn. reflexivity.
  - intros i m1 Hi [Hv Hkp]. wstep. wstep.
    apply wp_bind. eapply wp_mstore; [eapply mval_alloc; exact Hv|lia|lia|exact Hw|].
    eapply wp_mstore; [apply malloc_upd; eapply mval_alloc; exact Hv|lia|lia|exact Hw|].
    split.
    + eapply mval_ext; [eapply mval_upd_same; [exact Hwf|eapply mval_upd_same; [exact Hwf|exact Hv|lia|lia]|lia|lia]|].
      intros i' j Hi' Hj. unfold fupd2, swapc. bsplit; try lia; subst; try reflexivity; try lia.
    + apply keeps_upd_r; [|apply inm_ma; lia]. apply keeps_upd_r; [exact Hkp|apply inm_ma; lia].
  - intros m1 [Hv Hkp]. apply HQ; [|exact Hkp]. eapply mval_ext; [exact Hv|]. intros i j Hi Hj. cbv beta. bsplit; try lia. reflexivity.
Qed.

Lemma wp_aca_swaprows R W a k q F m (Q : unit -> mem K -> Prop) :
  mwf a -> mval m a F -> k < mrows a -> q < mrows a -> wrok W (inm a) ->
  (forall m', mval m' a (fun i j => F (swapc k q i) j) -> keeps (inm a) m m' -> Q tt m') ->
  wp R W (aca_swaprows a (mcols a) k q) m Q.
Proof.
  intros Hwf HA Hk Hq Hw HQ. unfold aca_swaprows.
  assert (Hr : rdok R W (inm a)) by (apply rdok_w; exact Hw).
  apply (wp_for (fun j m1 => mval m1 a (fun i j' => if j' <? j then F (swapc k q i) j' else F i j') /\ keeps (inm a) m m1)).
  - split; [|apply keeps_refl]. eapply mval_ext; [exact HA|]. intros i j _ _. cbn. reflexivity.
  - intros j m1 Hj [Hv Hkp]. wstep. wstep.
    apply wp_bind. eapply wp_mstore; [eapply mval_alloc; exact Hv|lia|lia|exact Hw|].
    eapply wp_mstore; [apply malloc_upd; eapply mval_alloc; exact Hv|lia|lia|exact Hw|].
    split.
    + eapply mval_ext; [eapply mval_upd_same; [exact Hwf|eapply mval_upd_same; [exact Hwf|exact Hv|lia|lia]|lia|lia]|].
      intros i j' Hi Hj'. unfold fupd2, swapc. bsplit; try lia; subst; try reflexivity; try lia.
    + apply keeps_upd_r; [|apply inm_ma; lia]. apply keeps_upd_r; [exact Hkp|apply inm_ma; lia].
  - intros m1 [Hv Hkp]. apply HQ; [|exact Hkp]. eapply mval_ext; [exact Hv|]. intros i j Hi Hj. cbv beta. bsplit; try lia. reflexivity.
Qed.

Lemma wp_aca_elim R W a k alpha F m (Q : unit -> mem K -> Prop) :
  mwf a -> mval m a F -> k < mrows a -> k < mcols a -> wrok W (inm a) ->
  (forall m', mval m' a (elimf F k alpha) -> keeps (inm a) m m' -> Q tt m') ->
  wp R W (aca_elim a (mrows a) (mcols a) k alpha) m Q.
Proof.
  intros Hwf HA Hk Hq Hw HQ. unfold aca_elim.
  assert (Hr : rdok R W (inm a)) by (apply rdok_w; exact Hw).
  apply wp_bind.
  apply (wp_for (fun i m1 => mval m1 a (fun p q => if (k <? p) && (p <? i) && (q =? k) then F p k * alpha else F p q)%F /\ keeps (inm a) m m1)).
  { split; [|apply keeps_refl]. eapply mval_ext; [exact HA|]. intros p q _ _. cbv beta. bsplit; reflexivity. }
  { intros i m1 Hi [Hv Hkp]. wstep. 
    eapply wp_mstore; [eapply mval_alloc; exact Hv|lia|lia|exact Hw|]. split.
    + eapply mval_ext; [eapply mval_upd_same; [exact Hwf|exact Hv|lia|lia]|].
      intros p q Hp Hq'. unfold fupd2. bsplit; try lia; subst; try reflexivity; try lia.
    + apply keeps_upd_r; [exact Hkp|apply inm_ma; lia]. }
  intros m1 [Hv1 Hk1].
  apply (wp_for (fun j m2 => mval m2 a (fun p q => if (k <? p) && (q <? j) && (k <? q) || (q =? k) then elimf F k alpha p q else F p q)%F /\ keeps (inm a) m m2)).
  { split; [|exact Hk1]. eapply mval_ext; [exact Hv1|]. intros p q Hp Hq'. unfold elimf. bsplit; subst; try reflexivity; lia. }
  - intros j m2 Hj [Hv2 Hk2].
    apply (wp_for (fun i m3 => mval m3 a (fun p q => if (k <? p) && ((q <? j) || (q =? j) && (p <? i)) && (k <? q) || (q =? k) then elimf F k alpha p q else F p q)%F /\ keeps (inm a) m m3)).
    + split; [|exact Hk2]. eapply mval_ext; [exact Hv2|]. intros p q _ _. cbv beta. bsplit; try reflexivity; lia.
    + intros i m3 Hi [Hv3 Hk3]. do 3 wstep.
      eapply wp_mstore; [eapply mval_alloc; exact Hv3|lia|lia|exact Hw|]. split.
      * eapply mval_ext; [eapply mval_upd_same; [exact Hwf|exact Hv3|lia|lia]|].
        intros p q Hp Hq'. unfold fupd2, elimf. bsplit; try lia; subst; try reflexivity; try lia.
      * apply keeps_upd_r; [exact Hk3|apply inm_ma; lia].
    + intros m3 [Hv3 Hk3]. split; [|exact Hk3]. eapply mval_ext; [exact Hv3|]. intros p q Hp Hq'. cbv beta. bsplit; try reflexivity; lia.
  - intros m2 [Hv2 Hk2]. apply HQ; [|exact Hk2]. eapply mval_ext; [exact Hv2|]. intros p q Hp Hq'. unfold elimf. bsplit; try reflexivity; lia.
Qed.

(** The state of the index arrays after [k] steps. *)
Definition apok (r c mr mc k : nat) (pr pc : nat -> nat) (ir ic : nat -> nat) (p : apiv) : Prop :=
  aprt (ap_rperm p) mr (fun i => i < k) pr /\ aprt (ap_cperm p) mc (fun i => i < k) pc /\
  aval (ap_rpivot p) r (fun x => ir (pperm pr k x)) /\ aval (ap_cpivot p) c (fun x => ic (pperm pc k x)) /\
  (forall i, i < k -> i <= pr i < r) /\ (forall i, i < k -> i <= pc i < c).

Lemma wp_apok R W r c mr mc k pr pc ir ic p i j m (B : Type) (g : arr nat -> arr nat -> arr nat -> arr nat -> prog K B) (Q : B -> mem K -> Prop) :
  apok r c mr mc k pr pc ir ic p -> k <= i < r -> k <= j < c -> k < mr -> k < mc ->
  (forall p' pr' pc', apok r c mr mc (S k) pr' pc' ir ic p' ->
     (forall x, pperm pr' (S k) x = pperm pr k (swapc k i x)) -> (forall x, pperm pc' (S k) x = pperm pc k (swapc k j x)) ->
     wp R W (g (ap_rpivot p') (ap_cpivot p') (ap_rperm p') (ap_cperm p')) m Q) ->
  wp R W (rpivot <- lift (aswap (ap_rpivot p) k i) ;; cpivot <- lift (aswap (ap_cpivot p) k j) ;;
          rperm <- lift (aset (ap_rperm p) k i) ;; cperm <- lift (aset (ap_cperm p) k j) ;; g rpivot cpivot rperm cperm) m Q.
Proof.
  intros (H1 & H2 & H3 & H4 & H5 & H6) Hi Hj Hmr Hmc HQ.
  apply wp_bind, wp_lift. eapply rok_aswap; [exact H3|lia|lia|]. intros rp Hrp.
  apply wp_bind, wp_lift. eapply rok_aswap; [exact H4|lia|lia|]. intros cp Hcp.
  apply wp_bind, wp_lift. eapply rok_aset_prt; [exact H1|lia|]. intros rm Hrm.
  apply wp_bind, wp_lift. eapply rok_aset_prt; [exact H2|lia|]. intros cm Hcm.
  assert (E : forall p0 x0 x, pperm (afupd p0 k x0) (S k) x = pperm p0 k (swapc k x0 x)).
  { intros p0 x0 x. cbn [pperm]. unfold afupd at 2. rewrite Nat.eqb_refl. apply pperm_ext.
    intros i' Hi'. unfold afupd. bsplit; try lia; reflexivity. }
  apply (HQ (Apiv rm cm rp cp) (afupd pr k i) (afupd pc k j)); cbn [ap_rpivot ap_cpivot ap_rperm ap_cperm]; [|intros; apply E|intros; apply E].
  unfold apok. cbn [ap_rpivot ap_cpivot ap_rperm ap_cperm]. split; [|split; [|split; [|split; [|split]]]].
  - eapply aprt_ext; [exact Hrm| |reflexivity]. cbv beta. intros; lia.
  - eapply aprt_ext; [exact Hcm| |reflexivity]. cbv beta. intros; lia.
  - eapply aval_ext; [exact Hrp|]. intros x _. cbv beta. rewrite E. reflexivity.
  - eapply aval_ext; [exact Hcp|]. intros x _. cbv beta. rewrite E. reflexivity.
  - intros x Hx. unfold afupd. bsplit; subst; try lia. apply H5; lia.
  - intros x Hx. unfold afupd. bsplit; subst; try lia. apply H6; lia.
Qed.

(** The loop. *)
Lemma wp_fullaca_loop R W a f tol cnt : forall k s pr pc p F m (Q : nat * apiv -> mem K -> Prop),
  mwf a -> wrok W (inm a) -> gt f0 tol = false ->
  mval m a F -> ainv (mrows a) (mcols a) k (fun i j => f (pperm pr k i) (pperm pc k j)) F ->
  apok (mrows a) (mcols a) (Nat.min (mrows a) (mcols a)) (Nat.min (mrows a) (mcols a)) k pr pc (fun x => x) (fun x => x) p ->
  found k (mrows a) (mcols a) F (fun _ _ => True) s -> k + cnt = Nat.min (mrows a) (mcols a) ->
  (forall k' p' pr' pc' F' m', k' <= Nat.min (mrows a) (mcols a) -> mval m' a F' -> keeps (inm a) m m' ->
     ainv (mrows a) (mcols a) k' (fun i j => f (pperm pr' k' i) (pperm pc' k' j)) F' ->
     apok (mrows a) (mcols a) (Nat.min (mrows a) (mcols a)) (Nat.min (mrows a) (mcols a)) k' pr' pc' (fun x => x) (fun x => x) p' ->
     (forall i j, k' <= i < mrows a -> k' <= j < mcols a -> gt (abssqr (F' i j)) tol = false) -> Q (k', p') m') ->
  wp R W (fullaca_loop gt a tol cnt k s p) m Q.
Proof.
  induction cnt as [|cnt IH]; intros k s pr pc p F m Q Hwf Hw Htol HA HI HP HF Hc HQ; cbn [fullaca_loop].
  - cbn [wp]. eapply HQ; eauto; [lia|apply keeps_refl|]. intros i j Hi Hj. lia.
  - destruct s as [[M pi] pj]. destruct HF as [H1 H2]. cbn [fst snd] in H1, H2.
    destruct (gt M tol) eqn:Eg; cbn [negb].
    2:{ cbn [wp]. eapply HQ; eauto; [lia|apply keeps_refl|]. intros i j Hi Hj.
        eapply (gl_trans gt GL); [apply H1; auto|exact Eg]. }
    assert (Hr : rdok R W (inm a)) by (apply rdok_w; exact Hw).
    destruct H2 as [->|(Hi & Hj & HM)]; [congruence|].
    apply wp_bind. eapply wp_mload; [exact HA|lia|lia|exact Hr|].
    assert (Hn0 : F pi pj <> f0).
    { intros E. rewrite E in HM. assert (E0 : M = f0) by (rewrite HM; unfold abssqr; ring). congruence. }
    eapply wp_apok; [exact HP|lia|lia|lia|lia|]. intros p' pr' pc' HP' Er Ec.
    apply wp_bind. eapply wp_aca_swapcols; [exact Hwf|exact HA|lia|lia|exact Hw|]. intros m1 HA1 Hk1.
    apply wp_bind. eapply wp_aca_swaprows; [exact Hwf|exact HA1|lia|lia|exact Hw|]. intros m2 HA2 Hk2. cbv beta in HA2.
    apply wp_bind. eapply wp_aca_elim; [exact Hwf|exact HA2|lia|lia|exact Hw|]. intros m3 HA3 Hk3.
    apply wp_bind. eapply wp_aca_search; [exact HA3|exact Hr|]. intros s Hs.
    replace (k + 1) with (S k) in * by lia.
    assert (HI' : ainv (mrows a) (mcols a) (S k) (fun i j => f (pperm pr' (S k) i) (pperm pc' (S k) j))
                    (elimf (fun i j => F (swapc k pi i) (swapc k pj j)) k (f1 / F pi pj)%F)).
    { pose proof (ainv_swap _ _ k pi pj _ _ HI ltac:(lia) ltac:(lia)) as HI1. cbv beta in HI1.
      pose proof (ainv_elim L _ _ k _ _ HI1 ltac:(lia) ltac:(lia)) as HI2. cbv beta in HI2. rewrite !swapc_k in HI2.
      specialize (HI2 Hn0). intros i j Hi' Hj'. rewrite Er, Ec. apply HI2; assumption. }
    assert (Hkk : keeps (inm a) m m3) by (eapply keeps_trans; [eapply keeps_trans; eassumption|exact Hk3]).
    destruct p' as [rm cm rp cp]. cbn [ap_rpivot ap_cpivot ap_rperm ap_cperm].
    eapply (IH _ _ _ _ _ _ _ _ Hwf Hw Htol HA3 HI' HP' Hs); [lia|].
    intros k' p' pr2 pc2 F' m' Hk' HA' Hkp' HI2 HP2 Hm. eapply HQ; eauto. eapply keeps_trans; eassumption.
Qed.
End AcaP2.
