(** * Triangular factors of a cross approximation *)
From Coq Require Import Arith Lia List Bool Ring.
From Verif Require Import Fld Prog Arr View Spec Loop Qr Aca AcaSpec AcaP2 AcaP3.
Import ListNotations.

Section AcaP7.
Context {K : fops}.
Implicit Types (m : mem K) (A B : mat) (f g : nat -> nat -> K).

Lemma wp_copy_lower_aca R W (un : bool) A (xi : arr nat) nx x B f g m (Q : unit -> mem K -> Prop) :
  mwf B -> mval m A f -> mval m B g -> disj (inm A) (inm B) -> mrows B <= mrows A -> mcols B = mcols A -> mcols A <= mrows B ->
  aval xi nx x -> mrows B <= nx -> (forall i, i < mrows B -> x i < mrows A) -> rdok R W (inm A) -> wrok W (inm B) ->
  (forall m', mval m' B (fun i j => if j <? i then f (x i) j else if i =? j then (if un then f1 else f (x i) j) else g i j) ->
     keeps (inm B) m m' -> Q tt m') ->
  wp R W (copy_lower_aca_amatrix un A xi B) m Q.
Proof.
  intros HW HA HB Hd Hr Hc Hs Hx Hn Hb Rd Wr HQ. unfold copy_lower_aca_amatrix.
  apply wp_bind, wp_assert; [apply Nat.leb_le; exact Hr|]. apply wp_bind, wp_assert; [apply Nat.eqb_eq; exact Hc|].
  set (h := fun i j => if j <? i then f (x i) j else if i =? j then (if un then f1 else f (x i) j) else g i j).
  apply (wp_for (fun j m1 => mval m1 B (fun i' j' => if j' <? j then h i' j' else g i' j') /\ keeps (inm B) m m1)).
  - split; [|apply keeps_refl]. eapply mval_ext; [exact HB|]. intros i j _ _. reflexivity.
  - intros j m1 Hj [H1 K1].
    assert (HA' : forall m2, keeps (inm B) m m2 -> mval m2 A f) by (intros m2 K2; eapply mval_keeps; [exact HA|exact K2|exact Hd]).
    apply wp_bind.
    enough (G : forall m2, m2 = upd m1 (ma B j j) (h j j) ->
      wp R W (for_ (j + 1) (mrows B - (j + 1)) (fun i => ii <- lift (aget xi i) ;; passert (ii <? mrows A) ;;; v <- mload A ii j ;; mstore B i j v)) m2
        (fun _ m' => mval m' B (fun i' j' => if j' <? S j then h i' j' else g i' j') /\ keeps (inm B) m m')).
    { unfold h in G. rewrite Nat.eqb_refl, Nat.ltb_irrefl in G. destruct un.
      - eapply wp_mstore; [eapply mval_alloc; exact H1|lia|lia|exact Wr|]. apply G. reflexivity.
      - apply wp_bind, wp_lift. eapply rok_aget; [exact Hx|lia|]. apply wp_bind, wp_assert; [apply Nat.ltb_lt, Hb; lia|].
        apply wp_bind. eapply wp_mload; [apply HA'; exact K1|apply Hb; lia|lia|exact Rd|].
        eapply wp_mstore; [eapply mval_alloc; exact H1|lia|lia|exact Wr|]. apply G. reflexivity. }
    intros m2 E2.
    assert (H2 : mval m2 B (fun i' j' => if (j' <? j) || (j' =? j) && (i' =? j) then h i' j' else g i' j')).
    { subst m2. eapply mval_ext; [eapply mval_upd_same; [exact HW|exact H1|lia|lia]|]. intros i' j' _ _. unfold fupd2.
      bsplit; subst; try reflexivity; lia. }
    assert (K2 : keeps (inm B) m m2) by (subst m2; apply keeps_upd_r; [exact K1|apply inm_ma; lia]).
    clear E2. eapply wp_mcol with (A := B) (j := j) (g := fun i => f (x i) j); [exact HW|exact H2|lia|lia| |].
    + intros i m3 Hi H3 K3. apply wp_bind, wp_lift. eapply rok_aget; [exact Hx|lia|]. apply wp_bind, wp_assert; [apply Nat.ltb_lt, Hb; lia|].
      apply wp_bind. eapply wp_mload; [apply HA'; eapply keeps_trans; eassumption|apply Hb; lia|lia|exact Rd|].
      eapply wp_mstore; [eapply mval_alloc; exact H3|lia|lia|exact Wr|].
      apply wrote_upd; [eapply malloc_get; [eapply mval_alloc; exact H3|lia|lia]|reflexivity].
    + intros m3 H3 K3. split; [|eapply keeps_trans; eassumption]. eapply mval_ext; [exact H3|].
      intros i' j' Hi' Hj'. cbv beta. unfold h. bsplit; subst; try reflexivity; lia.
  - intros m1 [H1 K1]. apply HQ; [|exact K1]. eapply mval_ext; [exact H1|]. intros i j Hi Hj. cbv beta.
    destruct (Nat.ltb_spec j (0 + mcols A)); [reflexivity|lia].
Qed.

Lemma wp_copy_upper_aca R W (un : bool) A (xi : arr nat) nx x B f g m (Q : unit -> mem K -> Prop) :
  mwf B -> mval m A f -> mval m B g -> disj (inm A) (inm B) -> mrows B <= mrows A -> mrows B = mcols A -> mrows B <= mcols B ->
  aval xi nx x -> mrows B <= nx -> (forall i, i < mrows B -> x i < mrows A) -> rdok R W (inm A) -> wrok W (inm B) ->
  (forall m', mval m' B (fun i j => if (i <? j) && (j <? mrows B) then f (x j) i else if i =? j then (if un then f1 else f (x j) i) else g i j) ->
     keeps (inm B) m m' -> Q tt m') ->
  wp R W (copy_upper_aca_amatrix un A xi B) m Q.
Proof.
  intros HW HA HB Hd Hr Hc Hs Hx Hn Hb Rd Wr HQ. unfold copy_upper_aca_amatrix.
  apply wp_bind, wp_assert; [apply Nat.leb_le; exact Hr|]. apply wp_bind, wp_assert; [apply Nat.eqb_eq; exact Hc|].
  set (h := fun i j => if (i <? j) && (j <? mrows B) then f (x j) i else if i =? j then (if un then f1 else f (x j) i) else g i j).
  apply (wp_for (fun j m1 => mval m1 B (fun i' j' => if j' <? j then h i' j' else g i' j') /\ keeps (inm B) m m1)).
  - split; [|apply keeps_refl]. eapply mval_ext; [exact HB|]. intros i j _ _. reflexivity.
  - intros j m1 Hj [H1 K1].
    assert (HA' : forall m2, keeps (inm B) m m2 -> mval m2 A f) by (intros m2 K2; eapply mval_keeps; [exact HA|exact K2|exact Hd]).
    apply wp_bind, wp_lift. eapply rok_aget; [exact Hx|lia|]. apply wp_bind, wp_assert; [apply Nat.ltb_lt, Hb; lia|].
    apply wp_bind. eapply wp_mcol with (A := B) (j := j) (g := fun i => f (x j) i); [exact HW|exact H1|lia|lia| |].
    + intros i m3 Hi H3 K3.
      apply wp_bind. eapply wp_mload; [apply HA'; eapply keeps_trans; eassumption|apply Hb; lia|lia|exact Rd|].
      eapply wp_mstore; [eapply mval_alloc; exact H3|lia|lia|exact Wr|].
      apply wrote_upd; [eapply malloc_get; [eapply mval_alloc; exact H3|lia|lia]|reflexivity].
    + intros m2 H2 K2.
      enough (G : mval (upd m2 (ma B j j) (h j j)) B (fun i' j' => if j' <? S j then h i' j' else g i' j') /\ keeps (inm B) m (upd m2 (ma B j j) (h j j))).
      { unfold h in G. rewrite Nat.eqb_refl, Nat.ltb_irrefl in G. cbn [andb] in G. destruct un.
        - eapply wp_mstore; [eapply mval_alloc; exact H2|lia|lia|exact Wr|]. exact G.
        - apply wp_bind. eapply wp_mload; [apply HA'; eapply keeps_trans; eassumption|apply Hb; lia|lia|exact Rd|].
          eapply wp_mstore; [eapply mval_alloc; exact H2|lia|lia|exact Wr|]. exact G. }
      split.
      * eapply mval_ext; [eapply mval_upd_same; [exact HW|exact H2|lia|lia]|]. intros i' j' Hi' Hj'. unfold fupd2.
        cbv beta. unfold h. bsplit; subst; try reflexivity; lia.
      * apply keeps_upd_r; [eapply keeps_trans; eassumption|apply inm_ma; lia].
  - intros m1 [H1 K1]. apply HQ; [|exact K1]. eapply mval_ext; [exact H1|]. intros i j Hi Hj. cbv beta. unfold h. bsplit; try lia; try reflexivity; congruence.
Qed.
End AcaP7.
