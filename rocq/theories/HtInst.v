(** * Singular value decompositions meeting the contract, for the examples *)
From Coq Require Import Arith Lia List Bool Permutation Ring Reals Lra.
From Verif Require Import Fld Inst Ord OrdInst Prog Arr View Loop Line Spec Avector Amatrix AvectorP AmatrixP AmatrixP2 Rkmatrix RkSpec RkP Factor FactorSpec FactorP CbmSpec CbmP CopSpec OrthoP SepP SepP2 SepP3 Htrunc HtSpec.
Import ListNotations.

(** Without orthogonality: [C = C 1 I] or [C = I 1 C], for matrices of any size *)
Section Triv.
Context {K : fops} (L : field_laws K).
Notation RL := (fl_ring K L).
Add Ring KringHtI : (rl_ring K (fl_ring K L)).
Definition triv_svd (c : mat) (sigma : vec) (u vt : mat) : prog K unit :=
  fill_avector sigma f1 ;;;
  if mcols c <=? mrows c then copy_amatrix false c u ;;; identity_amatrix vt
  else identity_amatrix u ;;; copy_amatrix false c vt.
Definition triv_rank (sigma : vec) : prog K nat := Ret (vdim sigma).
Lemma triv_svd_ok : svd_ok False (fun _ _ => True) (fun _ _ => True) triv_svd.
Proof.
  intros c sigma u vt f m k _ Wc Wu Wv Hf Hs Hu Hv Es Eu1 Eu2 Ev1 Ev2 HN. apply wp_ends. unfold triv_svd.
  apply NoDup_cons_iff in HN as [N1 HN]. apply NoDup_cons_iff in HN as [N2 HN]. apply NoDup_cons_iff in HN as [N3 _]. cbn in N1, N2, N3.
  assert (D1 : forall A : mat, vblk sigma <> mblk A -> disj (inm A) (inv sigma)).
  { intros A HA a H1 H2. apply inm_vm in H2. apply inm_blk in H1, H2. cbn in H2. congruence. }
  apply wp_bind, wp_fill_avector; [exact Hs|apply TTw|]. intros m1 Hs1 K1.
  assert (Hf1 : mval m1 c f) by (eapply mval_keeps; [exact Hf|exact K1|apply D1; intros E; apply N1; auto]).
  assert (Hu1 : malloc m1 u) by (eapply malloc_keeps; [exact Hu|exact K1|apply D1; intros E; apply N2; auto]).
  assert (Hv1 : malloc m1 vt) by (eapply malloc_keeps; [exact Hv|exact K1|apply D1; intros E; apply N2; auto]).
  destruct (Nat.leb_spec (mcols c) (mrows c)) as [Hle|Hlt].
  - unfold k in *. rewrite Nat.min_r in * by lia.
    apply wp_bind. eapply wp_copy_amatrix; [exact Wu|exact Hf1|exact Hu1|apply blk_disj; intros E; apply N1; auto|apply TTr|apply TTw|lia|lia|]. cbn [tr]. intros m2 Hu2 K2.
    apply wp_identity_amatrix; [exact Wv| |apply TTw|].
    { eapply malloc_keeps; [exact Hv1|exact K2|apply blk_disj; intros E; apply N3; auto]. }
    intros m3 Hv3 K3. exists f, f, (fun _ => f1), idf. split; [|split; [|split; [|split; [|split; [exact Hv3|]]]]].
    + unfold svdspec. rewrite Nat.min_r by lia. split; [|split; [intros; apply (fconj_1 RL)|split; [exact I|intros []]]].
      intros i j Hi Hj. rewrite (sum_single RL (mcols c) j); [|exact Hj|].
      * unfold idf. rewrite Nat.eqb_refl. ring.
      * intros l Hl Hne. unfold idf. destruct (Nat.eqb_spec l j); [congruence|ring].
    + eapply mval_keeps; [|exact K3|apply blk_disj; intros E; apply N1; auto]. eapply mval_keeps; [exact Hf1|exact K2|apply blk_disj; intros E; apply N1; auto].
    + apply vval_vm. eapply mval_keeps; [|exact K3|apply blk_disj; cbn; intros E; apply N2; auto]. eapply mval_keeps; [apply vval_vm, Hs1|exact K2|apply blk_disj; cbn; intros E; apply N2; auto].
    + eapply mval_keeps; [exact Hu2|exact K3|apply blk_disj; intros E; apply N3; auto].
    + eapply keeps_trans; [eapply keeps_mono; [|exact K1]|eapply keeps_trans; [eapply keeps_mono; [|exact K2]|eapply keeps_mono; [|exact K3]]]; cbv beta; auto.
  - unfold k in *. rewrite Nat.min_l in * by lia.
    apply wp_bind, wp_identity_amatrix; [exact Wu|exact Hu1|apply TTw|]. intros m2 Hu2 K2.
    assert (Hf2 : mval m2 c f) by (eapply mval_keeps; [exact Hf1|exact K2|apply blk_disj; intros E; apply N1; auto]).
    eapply wp_copy_amatrix; [exact Wv|exact Hf2| |apply blk_disj; intros E; apply N1; auto|apply TTr|apply TTw|lia|lia|].
    { eapply malloc_keeps; [exact Hv1|exact K2|apply blk_disj; intros E; apply N3; auto]. }
    cbn [tr]. intros m3 Hv3 K3. exists f, idf, (fun _ => f1), f. split; [|split; [|split; [|split; [|split; [exact Hv3|]]]]].
    + unfold svdspec. rewrite Nat.min_l by lia. split; [|split; [intros; apply (fconj_1 RL)|split; [exact I|intros []]]].
      intros i j Hi Hj. rewrite (sum_single RL (mrows c) i); [|exact Hi|].
      * unfold idf. rewrite Nat.eqb_refl. ring.
      * intros l Hl Hne. unfold idf. destruct (Nat.eqb_spec i l); [congruence|ring].
    + eapply mval_keeps; [exact Hf2|exact K3|apply blk_disj; intros E; apply N1; auto].
    + apply vval_vm. eapply mval_keeps; [|exact K3|apply blk_disj; cbn; intros E; apply N2; auto]. eapply mval_keeps; [apply vval_vm, Hs1|exact K2|apply blk_disj; cbn; intros E; apply N2; auto].
    + eapply mval_keeps; [exact Hu2|exact K3|apply blk_disj; intros E; apply N3; auto].
    + eapply keeps_trans; [eapply keeps_mono; [|exact K1]|eapply keeps_trans; [eapply keeps_mono; [|exact K2]|eapply keeps_mono; [|exact K3]]]; cbv beta; auto.
Qed.
Lemma triv_rank_ok : rank_ok (fun _ _ => True) (fun n _ k => k = n) triv_rank.
Proof. intros sigma s m _ _. exists (vdim sigma), m. split; [reflexivity|]. split; [reflexivity|]. split; [lia|reflexivity]. Qed.
End Triv.

(** The singular value decomposition of matrices with at most one row and one column *)
Section One.
Context {K : ofops} (OF : ofield_laws K).
Notation L := (ol_field K OF).
Notation RL := (fl_ring K L).
Add Ring KringHtI1 : (rl_ring K (fl_ring K L)).
Definition one_svd (c : mat) (sigma : vec) (u vt : mat) : prog K unit :=
  if (mrows c =? 0) || (mcols c =? 0) then Ret tt else
  x <- mload c 0 0 ;;
  identity_amatrix vt ;;;
  identity_amatrix u ;;;
  if flt x f0 then fill_avector sigma (fopp x) ;;; scale_amatrix (fopp f1) u
  else fill_avector sigma x.
Hypothesis Hreal : forall x : K, fconj x = x.
Lemma one_svd_ok : svd_ok True sorted (fun r c => r <= 1 /\ c <= 1) one_svd.
Proof.
  intros c sigma u vt f m k [Hr Hc] Wc Wu Wv Hf Hs Hu Hv Es Eu1 Eu2 Ev1 Ev2 HN. apply wp_ends. unfold one_svd.
  apply NoDup_cons_iff in HN as [N1 HN]. apply NoDup_cons_iff in HN as [N2 HN]. apply NoDup_cons_iff in HN as [N3 _]. cbn in N1, N2, N3.
  destruct (Nat.eqb_spec (mrows c) 0) as [E0|E0]; [|destruct (Nat.eqb_spec (mcols c) 0) as [E1|E1]]; cbn [orb].
  1,2: unfold k in *; cbn [wp]; exists f, (fun _ _ => f0), (fun _ => f0), (fun _ _ => f0);
    (split; [unfold svdspec; cbv zeta; split; [intros; lia|split; [intros; lia|split; [split; intros; lia|intros _; split; intros i j Hi; lia]]]|]);
    (split; [exact Hf|split; [intros i Hi; lia|split; [intros i j Hi Hj; lia|split; [intros i j Hi Hj; lia|apply keeps_refl]]]]).
  assert (Er : mrows c = 1) by lia. assert (Ec : mcols c = 1) by lia. unfold k in *. rewrite Er, Ec in *. cbn [Nat.min] in *.
  assert (D1 : forall A : mat, vblk sigma <> mblk A -> disj (inm A) (inv sigma)).
  { intros A HA a H1 H2. apply inm_vm in H2. apply inm_blk in H1, H2. cbn in H2. congruence. }
  eapply wp_bind, wp_mload; [exact Hf|lia|lia|apply TTr|].
  apply wp_bind, wp_identity_amatrix; [exact Wv|exact Hv|apply TTw|]. intros m1 Hv1 K1.
  apply wp_bind, wp_identity_amatrix; [exact Wu| |apply TTw|].
  { eapply malloc_keeps; [exact Hu|exact K1|apply blk_disj; intros E; apply N3; auto]. }
  intros m2 Hu2 K2.
  assert (Hf2 : mval m2 c f). { eapply mval_keeps; [|exact K2|apply blk_disj; intros E; apply N1; auto]. eapply mval_keeps; [exact Hf|exact K1|apply blk_disj; intros E; apply N1; auto]. }
  assert (Hv2 : mval m2 vt idf) by (eapply mval_keeps; [exact Hv1|exact K2|apply blk_disj; intros E; apply N3; auto]).
  assert (Hs2 : valloc m2 sigma).
  { apply malloc_vm. eapply malloc_keeps; [|exact K2|apply blk_disj; cbn; intros E; apply N2; auto]. eapply malloc_keeps; [apply malloc_vm, Hs|exact K1|apply blk_disj; cbn; intros E; apply N2; auto]. }
  assert (SP : forall (x w : K), f 0 0 = (w * x)%F -> (w * w)%F = f1 -> fle f0 x -> svdspec True sorted 1 1 f (fun i j => idf i j * w)%F (fun _ => x) idf).
  { assert (I00 : @idf K 0 0 = f1) by reflexivity. assert (I00' : fconj (@idf K 0 0) = f1) by (rewrite Hreal; reflexivity).
    intros x w E1' E2' Hx. split; [|split; [intros; apply Hreal|split; [split; [intros; lia|intros; exact Hx]|intros _; split]]].
    - intros [|i] [|j] Hi Hj; try lia. cbn [sum svdspec Nat.min]. rewrite ?Nat.min_id; cbn [sum]. rewrite ?I00, ?I00'. rewrite E1'. ring.
    - intros [|i] [|j] Hi Hj; try lia. cbn [sum svdspec Nat.min]. rewrite ?Nat.min_id; cbn [sum]. rewrite ?I00, ?I00'. rewrite !Hreal. transitivity (f1 * f1 * (w * w))%F; [ring|]. rewrite E2'. ring.
    - intros [|i] [|j] Hi Hj; try lia. cbn [sum svdspec Nat.min]. rewrite ?Nat.min_id; cbn [sum]. rewrite ?I00, ?I00'. rewrite !Hreal. ring. }
  destruct (flt (f 0 0) f0) eqn:E.
  - apply wp_bind, wp_fill_avector; [exact Hs2|apply TTw|]. intros m3 Hs3 K3.
    eapply wp_scale_amatrix; [exact Wu| |apply TTw|].
    { eapply mval_keeps; [exact Hu2|exact K3|apply D1; intros X; apply N2; auto]. }
    intros m4 Hu4 K4. exists f, (fun i j => idf i j * fopp f1)%F, (fun _ => fopp (f 0 0)), idf.
    split; [apply SP; [ring|ring|]|].
    { apply (fle_opp_nn OF). apply (olt_le (ofield_order OF)), E. }
    split; [|split; [|split; [exact Hu4|split]]].
    + eapply mval_keeps; [|exact K4|apply blk_disj; intros X; apply N1; auto]. eapply mval_keeps; [exact Hf2|exact K3|apply D1; intros X; apply N1; auto].
    + apply vval_vm. eapply mval_keeps; [apply vval_vm, Hs3|exact K4|apply blk_disj; cbn; intros X; apply N2; auto].
    + eapply mval_keeps; [|exact K4|apply blk_disj; intros X; apply N3; auto]. eapply mval_keeps; [exact Hv2|exact K3|apply D1; intros X; apply N2; auto].
    + eapply keeps_trans; [eapply keeps_mono; [|exact K1]|eapply keeps_trans; [eapply keeps_mono; [|exact K2]|eapply keeps_trans; [eapply keeps_mono; [|exact K3]|eapply keeps_mono; [|exact K4]]]]; cbv beta; auto.
  - apply wp_fill_avector; [exact Hs2|apply TTw|]. intros m3 Hs3 K3. exists f, (fun i j => idf i j * f1)%F, (fun _ => f 0 0), idf.
    split; [apply SP; [ring|ring|exact E]|].
    split; [|split; [exact Hs3|split; [|split]]].
    + eapply mval_keeps; [exact Hf2|exact K3|apply D1; intros X; apply N1; auto].
    + eapply mval_tr; [eapply mval_keeps; [exact Hu2|exact K3|apply D1; intros X; apply N2; auto]|]. intros i j _ _. ring.
    + eapply mval_keeps; [exact Hv2|exact K3|apply D1; intros X; apply N2; auto].
    + eapply keeps_trans; [eapply keeps_mono; [|exact K1]|eapply keeps_trans; [eapply keeps_mono; [|exact K2]|eapply keeps_mono; [|exact K3]]]; cbv beta; auto.
Qed.
End One.
