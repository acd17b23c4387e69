(** * Cross approximation with partial pivoting: the parts of one step *)
From Coq Require Import Arith Lia List Bool Ring.
From Verif Require Import Fld Prog Arr View Spec Loop FactorSpec FactorP Avector Amatrix AvectorP AmatrixP AmatrixP2 Rkmatrix RkSpec RkP Qr QrP2 Aca AcaSpec AcaP AcaP2 AcaP3.
Import ListNotations.

Lemma pa_ma A ld : mld A = ld -> pa A ld = ma A.
Proof. intros <-. reflexivity. Qed.

Section AcaP4.
Context {K : fops} (L : field_laws K) (gt : K -> K -> bool) (GL : gt_laws gt).
Notation RL := (fl_ring K L).
Add Ring KringA4 : (rl_ring K (fl_ring K L)).
Implicit Types (m : mem K) (R W : addr -> Prop) (A B : mat) (C D F G : nat -> nat -> K).

Definition setcol (C : nat -> nat -> K) (k : nat) (g : nat -> K) : nat -> nat -> K := fun i j => if j =? k then g i else C i j.

Lemma wp_aca_colmax R W A ld n k j F m (Q : nat -> mem K -> Prop) :
  mld A = ld -> mrows A = n -> mval m A F -> k < n -> j < mcols A -> rdok R W (inm A) ->
  (forall q, k <= q < n -> (forall i, k <= i < n -> gt (abssqr (F i j)) (abssqr (F q j)) = false) -> Q q m) ->
  wp R W (aca_colmax gt A ld n k j) m Q.
Proof.
  intros Hld Hn HA Hk Hj Hr HQ. unfold aca_colmax. rewrite (pa_ma A ld Hld).
  apply wp_bind. eapply wp_mload; [exact HA|lia|lia|exact Hr|].
  apply wp_bind.
  apply (wp_forS (fun i (s : K * nat) m1 => m1 = m /\ k <= snd s < n /\ fst s = abssqr (F (snd s) j) /\
                   forall i', k <= i' < i -> gt (abssqr (F i' j)) (fst s) = false)).
  - split; [reflexivity|]. cbn [fst snd]. split; [lia|]. split; [reflexivity|]. intros i' Hi'. replace i' with k by lia. apply (gl_irr gt GL).
  - intros i s m1 Hi (-> & H1 & H2 & H3). apply wp_bind. eapply wp_mload; [exact HA|lia|lia|exact Hr|].
    destruct (gt (abssqr (F i j)) (fst s)) eqn:E.
    + apply wp_bind. eapply wp_mload; [exact HA|lia|lia|exact Hr|]. cbn [wp fst snd]. split; [reflexivity|]. split; [lia|]. split; [reflexivity|].
      intros i' Hi'. destruct (Nat.eq_dec i' i) as [->|]; [apply (gl_irr gt GL)|]. eapply (gl_max gt GL); [apply H3; lia|exact E].
    + cbn [wp]. split; [reflexivity|]. split; [lia|]. split; [exact H2|].
      intros i' Hi'. destruct (Nat.eq_dec i' i) as [->|]; [exact E|]. apply H3. lia.
  - intros s m1 (-> & H1 & H2 & H3). cbn [wp]. apply HQ; [exact H1|]. intros i Hi. rewrite <- H2. apply H3. lia.
Qed.

Lemma wp_aca_residual R W B ldb n A lda i k C D m (Q : unit -> mem K -> Prop) :
  mld B = ldb -> mld A = lda -> mrows B = n -> mwf B -> mval m B D -> mval m A C -> disj (inm A) (inm B) ->
  k < mcols B -> k <= mcols A -> k <= n -> i < mrows A -> rdok R W (inm A) -> wrok W (inm B) ->
  (forall m', mval m' B (setcol D k (fun j => if j <? k then f0 else (D j k - sum k (fun mu => C i mu * D j mu))%F)) ->
     keeps (inm B) m m' -> Q tt m') ->
  wp R W (aca_residual B ldb n A lda i k) m Q.
Proof.
  intros Hb Ha Hn Hwf HB HA Hd Hk HkA Hkn Hi Hr Hw HQ. unfold aca_residual. rewrite (pa_ma B ldb Hb), (pa_ma A lda Ha).
  assert (HrB : rdok R W (inm B)) by (apply rdok_w; exact Hw).
  apply wp_bind.
  eapply wp_mcol with (A := B) (j := k) (g := fun _ => f0); [exact Hwf|exact HB|exact Hk|lia| |].
  { intros j m1 Hj H1 K1. eapply wp_mstore; [eapply mval_alloc; exact H1|lia|lia|exact Hw|].
    apply wrote_upd; [eapply malloc_get; [eapply mval_alloc; exact H1|lia|lia]|reflexivity]. }
  intros m1 H1 K1. cbv beta in H1.
  set (g := fun mu j => if j <? k then f0 else (D j k - sum mu (fun mu => C i mu * D j mu))%F).
  apply (wp_for (fun mu m2 => mval m2 B (setcol D k (g mu)) /\ keeps (inm B) m m2)).
  - split; [|exact K1]. eapply mval_ext; [exact H1|]. intros x y Hx Hy. unfold setcol, g. cbn [sum].
    bsplit; subst; try lia; try reflexivity. ring.
  - intros mu m2 Hmu [H2 K2]. apply wp_bind.
    assert (HA2 : mval m2 A C) by (eapply mval_keeps; [exact HA|exact K2|exact Hd]).
    eapply wp_mload; [exact HA2|lia|lia|exact Hr|].
    eapply wp_mcol with (A := B) (j := k) (g := g (S mu)); [exact Hwf|exact H2|exact Hk|lia| |].
    + intros j m3 Hj H3 K3.
      apply wp_bind. eapply wp_mload; [exact H3|lia|lia|exact HrB|].
      apply wp_bind. eapply wp_mload; [exact H3|lia|lia|exact HrB|].
      eapply wp_mstore; [eapply mval_alloc; exact H3|lia|lia|exact Hw|].
      apply wrote_upd; [eapply malloc_get; [eapply mval_alloc; exact H3|lia|lia]|].
      unfold setcol, g. cbn [sum]. bsplit; try lia. ring.
    + intros m3 H3 K3. split; [|eapply keeps_trans; eassumption]. eapply mval_ext; [exact H3|].
      intros x y Hx Hy. unfold setcol, g. bsplit; subst; try lia; try reflexivity.
  - intros m2 [H2 K2]. apply HQ; assumption.
Qed.

Lemma wp_aca_entry R W E (rp cp : arr nat) nr nc ri ci ro co (t : bool) A F roff k m (Q : unit -> mem K -> Prop) :
  mwf A -> mval m A F -> roff <= mrows A -> k < mcols A -> wrok W (inm A) ->
  aval rp nr ri -> aval cp nc ci ->
  (if t then ro < nr /\ co + (mrows A - roff) <= nc else ro + (mrows A - roff) <= nr /\ co < nc) ->
  (forall m', mval m' A (setcol F k (fun i => if roff <=? i then
       if t then fconj (E (ri ro) (ci (co + (i - roff)))) else E (ri (ro + (i - roff))) (ci co) else F i k)) -> keeps (inm A) m m' -> Q tt m') ->
  wp R W (aca_entry E rp ro cp co t (subm A roff (mrows A - roff) k 1)) m Q.
Proof.
  intros Hwf HA Hro Hk Hw Hrp Hcp Hb HQ. unfold aca_entry. set (n := subm A roff (mrows A - roff) k 1).
  assert (Hwn : wrok W (inm n)). { intros x Hx. apply Hw. eapply inm_subm; [| |exact Hx]; lia. }
  assert (HAn : mval m n (fun i j => F (roff + i) (k + j))) by (apply mval_subm; [exact HA|lia|lia]).
  set (g := fun i j => if t then fconj (E (ri (ro + j)) (ci (co + i))) else E (ri (ro + i)) (ci (co + j))).
  eapply wp_mfill with (A := n) (g := g); [apply mwf_subm; [exact Hwf|lia]|eapply mval_alloc; exact HAn|reflexivity|reflexivity| |].
  - cbn [n subm mcols mrows]. intros i j m1 Hj Hi Hal K1.
    apply wp_bind, wp_lift. eapply rok_aget; [exact Hrp|destruct t; lia|].
    apply wp_bind, wp_lift. eapply rok_aget; [exact Hcp|destruct t; lia|].
    eapply wp_mstore; [exact Hal|exact Hi|exact Hj|exact Hwn|].
    apply wrote_upd; [eapply malloc_get; [exact Hal|exact Hi|exact Hj]|]. unfold g. destruct t; reflexivity.
  - intros m1 H1 K1. apply HQ.
    + eapply mval_ext; [eapply mval_subm_back; [exact Hwf|exact HA| | |exact H1|exact K1]; lia|].
      intros i j Hi Hj. cbv beta. unfold setcol, g. bsplit; subst; try lia; try reflexivity.
      replace (k - k) with 0 by lia. rewrite !Nat.add_0_r. reflexivity.
    + eapply keeps_subm; [| |exact K1]; lia.
Qed.

Lemma wp_conj_sub R W A F roff k m (Q : unit -> mem K -> Prop) :
  mwf A -> mval m A F -> roff <= mrows A -> k < mcols A -> wrok W (inm A) ->
  (forall m', mval m' A (setcol F k (fun i => if roff <=? i then fconj (F i k) else F i k)) -> keeps (inm A) m m' -> Q tt m') ->
  wp R W (conjugate_amatrix (subm A roff (mrows A - roff) k 1)) m Q.
Proof.
  intros Hwf HA Hro Hk Hw HQ. eapply wp_conjugate_amatrix.
  - apply mwf_subm; [exact Hwf|lia].
  - apply mval_subm; [exact HA|lia|lia].
  - intros x Hx. apply Hw. eapply inm_subm; [| |exact Hx]; lia.
  - intros m1 H1 K1. apply HQ.
    + eapply mval_ext; [eapply mval_subm_back; [exact Hwf|exact HA| | |exact H1|exact K1]; lia|].
      intros i j Hi Hj. cbv beta. unfold setcol. bsplit; subst; try lia; try reflexivity.
      replace (roff + (i - roff)) with i by lia. replace (k + (k - k)) with k by lia. reflexivity.
    + eapply keeps_subm; [| |exact K1]; lia.
Qed.

Lemma wp_aca_colnorm R W A ld n k j F m (Q : K -> mem K -> Prop) :
  mld A = ld -> mrows A = n -> mval m A F -> k <= n -> j < mcols A -> rdok R W (inm A) ->
  (forall s, Q s m) -> wp R W (aca_colnorm A ld n k j) m Q.
Proof.
  intros Hld Hn HA Hk Hj Hr HQ. unfold aca_colnorm. rewrite (pa_ma A ld Hld).
  apply (wp_forS (fun _ _ m1 => m1 = m)).
  - reflexivity.
  - intros i s m1 Hi ->. apply wp_bind. eapply wp_mload; [exact HA|lia|lia|exact Hr|]. reflexivity.
  - intros s m1 ->. apply HQ.
Qed.

Lemma wp_aca_swaploop R W A ld k q n F m (Q : unit -> mem K -> Prop) :
  mld A = ld -> mwf A -> mval m A F -> k < mrows A -> q < mrows A -> n = mcols A -> wrok W (inm A) ->
  (forall m', mval m' A (fun x y => F (swapc k q x) y) -> keeps (inm A) m m' -> Q tt m') ->
  wp R W (for_ 0 n (fun j => aca_swapat (pa A ld) k q j)) m Q.
Proof.
  intros Hld Hwf HA Hk Hq Hn Hw HQ. rewrite (pa_ma A ld Hld).
  apply (wp_for (fun j m1 => mval m1 A (fun x y => if y <? j then F (swapc k q x) y else F x y) /\ keeps (inm A) m m1)).
  - split; [|apply keeps_refl]. eapply mval_ext; [exact HA|]. intros; cbv beta; bsplit; reflexivity.
  - intros j m1 Hj [H1 K1]. eapply wp_aca_swapat; [exact Hwf|exact H1|lia|lia|lia|exact Hw|].
    intros m2 H2 K2. split; [|eapply keeps_trans; eassumption]. eapply mval_ext; [exact H2|]. intros; cbv beta; bsplit; try lia; reflexivity.
  - intros m1 [H1 K1]. apply HQ; [|exact K1]. eapply mval_ext; [exact H1|]. intros; cbv beta; bsplit; try lia; reflexivity.
Qed.
End AcaP4.
