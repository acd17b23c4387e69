(** * Programs on lists of owned matrices: dense operations *)
From Coq Require Import Arith Lia List Bool Permutation Ring.
From Verif Require Import Fld Ord Prog Arr View Loop Line Spec Cluster Block Avector Amatrix AvectorP AmatrixP AmatrixP2 Rkmatrix RkSpec RkP Factor FactorSpec FactorP FactorP2 FactorP3 LrP
  Chol CholSpec Qr QrSpec QrP QrP2 QrP3 QrP4 QrP7 QrP8 QrP10 CbmSpec CbmP CopSpec OrthoP SepP.
Import ListNotations.

Section Sep.
Context {K : fops} (L : field_laws K).
Notation RL := (fl_ring K L).
Add Ring KringSe : (rl_ring K (fl_ring K L)).
Implicit Types (m : mem K) (D : nat -> Prop) (bs : list nat) (l : list (ent (K := K))) (f g : nat -> nat -> K).

Lemma blk_disj A B : mblk A <> mblk B -> disj (inm A) (inm B).
Proof. intros H a Ha Hb. apply inm_blk in Ha, Hb. congruence. Qed.
Lemma mval_tr m A f g : mval m A f -> (forall i j, i < mrows A -> j < mcols A -> g i j = f i j) -> mval m A g.
Proof. intros H HE i j Hi Hj. rewrite (H i j Hi Hj), HE by assumption. reflexivity. Qed.

Lemma s_clear n m0 bs D l m A ok f (Q : unit -> mem K -> Prop) : st m0 bs D l m -> nth_error l n = Some (A, ok, f) ->
  (forall m', st m0 bs D (setn n (full A (fun _ _ => f0)) l) m' -> Q tt m') -> wp TT TT (clear_amatrix A) m Q.
Proof.
  intros H Hn HQ. destruct (st_own _ _ _ _ _ _ _ _ _ H Hn) as (_ & _ & W & A1). apply wp_clear_amatrix; [exact W|exact A1|apply TTw|].
  intros m' Hv Hk. apply HQ. eapply st_writef; eassumption.
Qed.
Lemma s_copy n (t : bool) m0 bs D l m A f B ok g (Q : unit -> mem K -> Prop) : st m0 bs D l m -> nth_error l n = Some (B, ok, g) ->
  mval m A f -> mblk A <> mblk B -> (if t then mcols A else mrows A) = mrows B -> (if t then mrows A else mcols A) = mcols B ->
  (forall m', st m0 bs D (setn n (full B (tr t f)) l) m' -> Q tt m') -> wp TT TT (copy_amatrix t A B) m Q.
Proof.
  intros H Hn HA Hne E1 E2 HQ. destruct (st_own _ _ _ _ _ _ _ _ _ H Hn) as (_ & _ & W & A1).
  eapply wp_copy_amatrix with (f := f); [exact W|exact HA|exact A1|apply blk_disj, Hne|apply TTr|apply TTw|exact E1|exact E2|].
  intros m' Hv Hk. apply HQ. eapply st_writef; eassumption.
Qed.
Lemma s_copyp n (t : bool) roff rows coff cols m0 bs D l m A f B ok g (Q : unit -> mem K -> Prop) : st m0 bs D l m -> nth_error l n = Some (B, ok, g) ->
  roff + rows <= mrows B -> coff + cols <= mcols B ->
  mval m A f -> mblk A <> mblk B -> (if t then mcols A else mrows A) = rows -> (if t then mrows A else mcols A) = cols ->
  (forall m', st m0 bs D (setn n (B, (fun i j => ok i j \/ insub roff rows coff cols i j), subval roff rows coff cols (tr t f) g) l) m' -> Q tt m') ->
  wp TT TT (copy_amatrix t A (subm B roff rows coff cols)) m Q.
Proof.
  intros H Hn Hr Hc HA Hne E1 E2 HQ. destruct (st_own _ _ _ _ _ _ _ _ _ H Hn) as (_ & _ & W & A1).
  eapply wp_copy_amatrix with (f := f); [apply mwf_subm; [exact W|lia]|exact HA|apply malloc_subm; assumption|apply blk_disj, Hne|apply TTr|apply TTw|exact E1|exact E2|].
  intros m' Hv Hk. apply HQ. eapply st_writep; eassumption.
Qed.
Lemma s_scalep n alpha roff rows coff cols m0 bs D l m B ok f g (Q : unit -> mem K -> Prop) : st m0 bs D l m -> nth_error l n = Some (B, ok, g) ->
  roff + rows <= mrows B -> coff + cols <= mcols B -> mval m (subm B roff rows coff cols) f ->
  (forall m', st m0 bs D (setn n (B, (fun i j => ok i j \/ insub roff rows coff cols i j), subval roff rows coff cols (fun i j => f i j * alpha)%F g) l) m' -> Q tt m') ->
  wp TT TT (scale_amatrix alpha (subm B roff rows coff cols)) m Q.
Proof.
  intros H Hn Hr Hc HA HQ. destruct (st_own _ _ _ _ _ _ _ _ _ H Hn) as (_ & _ & W & A1).
  eapply wp_scale_amatrix; [apply mwf_subm; [exact W|lia]|exact HA|apply TTw|].
  intros m' Hv Hk. apply HQ. eapply st_writep; eassumption.
Qed.
Lemma s_scale n alpha m0 bs D l m B g (Q : unit -> mem K -> Prop) : st m0 bs D l m -> nth_error l n = Some (full B g) ->
  (forall m', st m0 bs D (setn n (full B (fun i j => g i j * alpha)%F) l) m' -> Q tt m') -> wp TT TT (scale_amatrix alpha B) m Q.
Proof.
  intros H Hn HQ. destruct (st_own _ _ _ _ _ _ _ _ _ H Hn) as (_ & _ & W & A1).
  eapply wp_scale_amatrix; [exact W|eapply st_mval; eassumption|apply TTw|]. intros m' Hv Hk. apply HQ. eapply st_writef; eassumption.
Qed.
Lemma s_addmul n m0 bs D l m alpha (ta : bool) A (tb : bool) B C f g h (Q : unit -> mem K -> Prop) : st m0 bs D l m -> nth_error l n = Some (full C h) ->
  mval m A f -> mval m B g -> mblk A <> mblk C -> mblk B <> mblk C ->
  (if ta then mcols A else mrows A) = mrows C -> (if tb then mrows B else mcols B) = mcols C -> (if ta then mrows A else mcols A) = (if tb then mcols B else mrows B) ->
  (forall m', st m0 bs D (setn n (full C (fun i k => h i k + alpha * sum (if ta then mrows A else mcols A) (fun j => tr ta f i j * tr tb g j k))%F) l) m' -> Q tt m') ->
  wp TT TT (addmul_amatrix alpha ta A tb B C) m Q.
Proof.
  intros H Hn HA HB NA NB E1 E2 E3 HQ. destruct (st_own _ _ _ _ _ _ _ _ _ H Hn) as (_ & _ & W & A1).
  eapply (wp_addmul_amatrix RL TT TT alpha ta A tb B C f g h); [exact W|exact HA|exact HB|eapply st_mval; eassumption|apply blk_disj, NA|apply blk_disj, NB|apply TTr|apply TTr|apply TTw|lia|lia|exact E3|].
  intros m' Hv Hk. apply HQ. eapply st_writef; [exact H|exact Hn|exact Hk|]. intros i k Hi Hk'. rewrite (Hv i k Hi Hk'), E1, E2. apply Nat.ltb_lt in Hi, Hk'. rewrite Hi, Hk'. reflexivity.
Qed.
(** [copy_sub_amatrix] that overwrites the whole target *)
Lemma wp_copysub_all (t : bool) A B f m (Q : unit -> mem K -> Prop) : mwf B -> malloc m B -> mval m A f -> mblk A <> mblk B ->
  mrows B <= (if t then mcols A else mrows A) -> mcols B <= (if t then mrows A else mcols A) ->
  (forall m', mval m' B (tr t f) -> keeps (inm B) m m' -> Q tt m') -> wp TT TT (copy_sub_amatrix t A B) m Q.
Proof.
  intros W A1 HA Hne E1 E2 HQ.
  set (A' := if t then subm A 0 (mcols B) 0 (mrows B) else subm A 0 (mrows B) 0 (mcols B)).
  assert (HA' : mval m A' f).
  { destruct t; unfold A'; eapply mval_ext; try (apply mval_subm; [exact HA|lia|lia]); reflexivity. }
  assert (E : copy_sub_amatrix (K := K) t A' B = copy_sub_amatrix t A B).
  { unfold copy_sub_amatrix, A'. destruct t; cbn [subm mrows mcols]; rewrite ?Nat.min_id, ?(Nat.min_r _ (mrows B)), ?(Nat.min_r _ (mcols B)) by lia.
    - unfold mload, ma. cbn [subm mblk moff mld]. rewrite ?Nat.mul_0_r, ?Nat.mul_0_l, ?Nat.add_0_r. reflexivity.
    - unfold mload, ma. cbn [subm mblk moff mld]. rewrite ?Nat.mul_0_r, ?Nat.mul_0_l, ?Nat.add_0_r. reflexivity. }
  assert (HC : wp TT TT (copy_amatrix t A' B) m Q).
  { eapply wp_copy_amatrix with (f := f); [exact W|exact HA'|exact A1| |apply TTr|apply TTw| | |exact HQ].
    - apply blk_disj. destruct t; exact Hne.
    - destruct t; reflexivity.
    - destruct t; reflexivity. }
  rewrite <- E. revert HC. unfold copy_amatrix. assert (EA : mrows A' = if t then mcols B else mrows B) by (destruct t; reflexivity). assert (EB : mcols A' = if t then mrows B else mcols B) by (destruct t; reflexivity).
  destruct t; rewrite EA, EB, !Nat.eqb_refl; cbn [passert bind]; auto.
Qed.
Lemma s_copysub n (t : bool) m0 bs D l m A f B ok g (Q : unit -> mem K -> Prop) : st m0 bs D l m -> nth_error l n = Some (B, ok, g) ->
  mval m A f -> mblk A <> mblk B -> mrows B <= (if t then mcols A else mrows A) -> mcols B <= (if t then mrows A else mcols A) ->
  (forall m', st m0 bs D (setn n (full B (tr t f)) l) m' -> Q tt m') -> wp TT TT (copy_sub_amatrix t A B) m Q.
Proof.
  intros H Hn HA Hne E1 E2 HQ. destruct (st_own _ _ _ _ _ _ _ _ _ H Hn) as (_ & _ & W & A1).
  eapply wp_copysub_all; [exact W|exact A1|exact HA|exact Hne|exact E1|exact E2|]. intros m' Hv Hk. apply HQ. eapply st_writef; eassumption.
Qed.
Lemma s_copysub_on n (t : bool) m0 bs D l m A f B g (Q : unit -> mem K -> Prop) : st m0 bs D l m -> nth_error l n = Some (full B g) ->
  mval m A f -> mblk A <> mblk B ->
  (forall m', st m0 bs D (setn n (full B (fun i j => if (i <? if t then mcols A else mrows A) && (j <? if t then mrows A else mcols A) then tr t f i j else g i j)) l) m' -> Q tt m') ->
  wp TT TT (copy_sub_amatrix t A B) m Q.
Proof.
  intros H Hn HA Hne HQ. destruct (st_own _ _ _ _ _ _ _ _ _ H Hn) as (_ & _ & W & A1).
  eapply wp_copy_sub_amatrix with (f := f) (g := g); [exact W|exact HA|eapply st_mval; eassumption|apply blk_disj, Hne|apply TTr|apply TTw|]. intros m' Hv Hk. apply HQ. eapply st_writef; eassumption.
Qed.

(** ** Vectors *)
Lemma vval_vm m v (g : nat -> K) : vval m v g <-> mval m (vm v) (fun i _ => g i).
Proof.
  split.
  - intros H i j Hi Hj. cbn in Hi, Hj. assert (j = 0) by lia. subst j. rewrite ma_vm. apply H, Hi.
  - intros H i Hi. rewrite <- ma_vm. apply (H i 0); cbn; lia.
Qed.
Lemma vm_disj v B : vblk v <> mblk B -> disj (inv v) (inm B).
Proof. intros H a Ha Hb. apply inm_vm in Ha. apply inm_blk in Ha, Hb. cbn in Ha. congruence. Qed.

Lemma s_diag n alpha (t xt : bool) m0 bs D l m (v : vec) s X f (Q : unit -> mem K -> Prop) : st m0 bs D l m -> nth_error l n = Some (full X f) ->
  vval m v s -> vblk v <> mblk X -> (forall i, i < vdim v -> fconj (s i) = s i) -> (if xt then mcols X else mrows X) <= vdim v ->
  (forall f' m', (forall i k, i < (if xt then mcols X else mrows X) -> k < (if xt then mrows X else mcols X) -> tr xt f' i k = (alpha * s i * tr xt f i k)%F) ->
     st m0 bs D (setn n (full X f') l) m' -> Q tt m') -> wp TT TT (diageval_realavector_amatrix alpha t v xt X) m Q.
Proof.
  intros H Hn Hv Hne Hs Hd HQ. destruct (st_own _ _ _ _ _ _ _ _ _ H Hn) as (_ & _ & W & A1).
  eapply (wp_diageval_realavector_amatrix RL) with (f := s) (g := f); [exact W|exact Hv|eapply st_mval; eassumption|apply vm_disj, Hne|exact Hs|apply TTr|apply TTw|destruct xt; exact Hd|].
  intros g' m' Hg Hv' Hk. apply (HQ g'); [intros i k Hi Hk'; apply Hg; destruct xt; assumption|]. eapply st_writef; eassumption.
Qed.
Lemma s_diagp n alpha (t xt : bool) roff rows coff cols m0 bs D l m (v : vec) s X f (Q : unit -> mem K -> Prop) : st m0 bs D l m -> nth_error l n = Some (full X f) ->
  roff + rows <= mrows X -> coff + cols <= mcols X ->
  vval m v s -> vblk v <> mblk X -> (forall i, i < vdim v -> fconj (s i) = s i) -> (if xt then cols else rows) <= vdim v ->
  (forall f' m', (forall i k, i < (if xt then cols else rows) -> k < (if xt then rows else cols) ->
       tr xt f' i k = (alpha * s i * tr xt (fun i j => f (roff + i) (coff + j))%nat i k)%F) ->
     st m0 bs D (setn n (full X (subval roff rows coff cols f' f)) l) m' -> Q tt m') ->
  wp TT TT (diageval_realavector_amatrix alpha t v xt (subm X roff rows coff cols)) m Q.
Proof.
  intros H Hn Hr Hc Hv Hne Hs Hd HQ. destruct (st_own _ _ _ _ _ _ _ _ _ H Hn) as (_ & _ & W & A1).
  eapply (wp_diageval_realavector_amatrix RL) with (f := s) (g := fun i j => f (roff + i) (coff + j));
    [apply mwf_subm; [exact W|lia]|exact Hv|apply mval_subm; [eapply st_mval; eassumption|exact Hr|exact Hc]|apply vm_disj, Hne|exact Hs|apply TTr|apply TTw|destruct xt; exact Hd|].
  intros g' m' Hg Hv' Hk. apply (HQ g'); [intros i k Hi Hk'; apply Hg; destruct xt; assumption|].
  pose proof (st_writep _ _ _ _ _ _ _ _ _ _ _ _ _ _ _ H Hn Hr Hc Hk Hv') as H1. eapply st_conv with (n := n) (A := X) in H1.
  - rewrite setn_setn in H1. exact H1.
  - rewrite nth_setn. rewrite Nat.eqb_refl. replace (n <? length l) with true; [reflexivity|]. symmetry. apply Nat.ltb_lt. apply nth_error_Some. congruence.
  - intros i j _ _ _. split; [left; exact I|reflexivity].
Qed.
End Sep.
