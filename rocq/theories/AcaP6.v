(** * Cross approximation with partial pivoting: the result *)
From Coq Require Import Arith Lia List Bool Ring.
From Verif Require Import Fld Prog Arr View Spec Loop FactorSpec FactorP Avector Amatrix AvectorP AmatrixP AmatrixP2 Rkmatrix RkSpec RkP Qr QrP2 Aca AcaSpec AcaP AcaP2 AcaP3 AcaP4 AcaP5.
Import ListNotations.

Section AcaP6.
Context {K : fops} (L : field_laws K) (gt : K -> K -> bool) (GL : gt_laws gt) (sq : K -> K).
Notation RL := (fl_ring K L).
Add Ring KringA6 : (rl_ring K (fl_ring K L)).
Implicit Types (m : mem K) (A B : mat) (C D : nat -> nat -> K).

Lemma abssqr_conj (x : K) : abssqr (fconj x) = abssqr x.
Proof. unfold abssqr. rewrite (rl_conj_conj K RL). ring. Qed.

Lemma nth_map_pperm p k x : x < k -> nth x (map (pperm p k) (seq 0 k)) 0 = pperm p k x.
Proof.
  intros Hx. rewrite (nth_indep _ 0 (pperm p k 0)) by (rewrite map_length, seq_length; exact Hx).
  rewrite map_nth, seq_nth by exact Hx. reflexivity.
Qed.

Lemma wp_decomp_partialaca (E : nat -> nat -> K) (rows cols : nat) accur ridx cidx r (A0 B0 : nat -> nat -> K) m
  (Q : rkm * list nat * list nat -> mem K -> Prop) :
  length ridx = rows -> length cidx = cols -> rkown m r -> mld (rk_A r) = mrows (rk_A r) -> mld (rk_B r) = mrows (rk_B r) ->
  mval m (rk_A r) A0 -> mval m (rk_B r) B0 ->
  (rk_k r = 0 /\ mrows (rk_A r) = rows /\ mrows (rk_B r) = cols \/ 0 < rows /\ 0 < cols /\ gt f1 accur = true) ->
  (forall r' lr lc C D m', rkown m' r' -> mrows (rk_A r') = rows -> mrows (rk_B r') = cols ->
     mval m' (rk_A r') C -> mval m' (rk_B r') D -> rk_k r' <= Nat.min rows cols ->
     length lr = rk_k r' -> length lc = rk_k r' -> indices rows lr -> indices cols lc ->
     (forall nu j, nu < rk_k r' -> j < cols -> gt (abssqr (D j nu)) (abssqr (D (nth nu lc 0) nu)) = false) ->
     (forall nu i, S nu < rk_k r' -> i < rows -> ~ In i (firstn (S nu) lr) -> gt (abssqr (C i nu)) (abssqr (C (nth (S nu) lr 0) nu)) = false) ->
     ((forall nu, nu < rk_k r' -> D (nth nu lc 0) nu <> f0) ->
        crossed rows cols (fun i j => E (nth i ridx 0) (nth j cidx 0)) (lowrank (rk_k r') C D) lr lc) ->
     keeps (fun a => rkblk r a \/ next m <= fst a) m m' ->
     Q (r', map (fun i => nth i ridx 0) lr, map (fun j => nth j cidx 0) lc) m') ->
  wp TT TT (decomp_partialaca_rkmatrix gt sq E rows cols accur ridx cidx r) m Q.
Proof.
  intros Lr Lc HO HlA HlB HA HB Hcase HQ. unfold decomp_partialaca_rkmatrix. cbv zeta.
  set (ri := fun i => nth i ridx 0) in *. set (ci := fun j => nth j cidx 0) in *.
  destruct HO as (O1 & O2 & O3 & O4 & O5 & O6 & O7 & O8 & O9 & O10 & O11).
  apply wp_bind.
  eapply (wp_partialaca_loop L gt GL sq E rows cols accur ri ci m (mblk (rk_A r)) (mblk (rk_B r))) with (pr := fun x => x) (pc := fun x => x) (C := A0) (D := B0).
  { unfold pst. split; [|split; [|split; [|split; [|split]]]].
    - auto 10.
    - unfold pblk. cbn [fst]. split; [tauto|]. split; [tauto|]. apply keeps_refl.
    - auto.
    - intros; lia.
    - unfold apok. cbn [ap_rperm ap_cperm ap_rpivot ap_cpivot pperm]. split; [|split; [|split; [|split; [|split]]]]; try (intros; lia).
      + apply anew_prt. intros; lia.
      + apply anew_prt. intros; lia.
      + rewrite <- Lr. exact (aof_val ridx 0).
      + rewrite <- Lc. exact (aof_val cidx 0).
    - unfold pmath. repeat split; try (intros; lia). }
  { reflexivity. }
  intros A B k p pr pc C D m1 Hk Hk0 ((S1 & S2 & S3 & S4 & S5 & S6 & S7) & (B1 & B2 & KP) & (HC & HD) & HS & HP & HM) Hsame.
  destruct HP as (P1 & P2 & P3 & P4 & P5 & P6).
  assert (Sz : mrows A = rows /\ mcols A = k /\ mrows B = cols /\ mcols B = k).
  { destruct (Nat.eq_dec k 0) as [->|N]; [|apply HS; lia]. destruct Hcase as [(H1 & H2 & H3)|(H1 & H2 & H3)].
    - destruct Hsame as [-> ->]; [reflexivity|]. lia.
    - exfalso. assert (0 < 0); [|lia]. apply Hk0; [|exact H3]. destruct rows, cols; lia. }
  destruct Sz as (Sz1 & Sz2 & Sz3 & Sz4).
  assert (WA : mwf A) by (unfold mwf; lia). assert (WB : mwf B) by (unfold mwf; lia).
  assert (dAB : disj (inm A) (inm B)). { intros x Hx Hy. apply inm_blk in Hx, Hy. congruence. }
  rewrite (pa_ma A rows), (pa_ma B cols) by lia.
  apply wp_bind. eapply wp_aca_unpivot with (mr := rows) (mc := cols) (pr := pr) (pc := pc);
    [exact WA|exact WB|exact HC|exact HD|exact dAB|intros x _; exact I|intros x _; exact I|lia|lia|lia|lia|lia|lia|exact P1|exact P2| | |].
  { intros i Hi. rewrite Sz1. apply P5; exact Hi. }
  { intros i Hi. rewrite Sz3. apply P6; exact Hi. }
  intros m2 HC2 HD2 K2.
  apply wp_bind. eapply wp_conjugate_amatrix; [exact WB|exact HD2|intros x _; exact I|]. intros m3 HD3 K3. cbv beta in HD3.
  assert (HC3 : mval m3 A (fun x j => if j <? k then C (ipperm pr k x) j else C x j)) by (eapply mval_keeps; [exact HC2|exact K3|exact dAB]).
  apply wp_bind, wp_lift. eapply rok_rmap_aget; [apply aval_aprt with (P := fun _ => True); exact P3| |].
  { intros i Hi. apply in_seq in Hi. split; [lia|exact I]. }
  apply wp_bind, wp_lift. eapply rok_rmap_aget; [apply aval_aprt with (P := fun _ => True); exact P4| |].
  { intros i Hi. apply in_seq in Hi. split; [lia|exact I]. }
  cbn [wp].
  rewrite <- (map_map (pperm pr k) ri), <- (map_map (pperm pc k) ci).
  destruct HM as (M1 & M2 & M3 & M4 & M5).
  assert (Bpr : forall i, i < k -> pr i < rows) by (intros i Hi; apply P5; exact Hi).
  assert (Bpc : forall i, i < k -> pc i < cols) by (intros i Hi; apply P6; exact Hi).
  assert (KK : keeps (fun x => inm A x \/ inm B x) m1 m3).
  { eapply keeps_trans; [exact K2|]. eapply keeps_mono; [|exact K3]. cbv beta. tauto. }
  assert (Nx : next m1 <= next m3) by apply KK.
  eapply HQ with (C := fun x j => C (ipperm pr k x) j) (D := fun x j => fconj (D (ipperm pc k x) j)); cbn [rk_A rk_B rk_k].
  - unfold rkown. cbn [rk_A rk_B rk_k]. pose proof (mval_alloc _ _ _ HC3). pose proof (mval_alloc _ _ _ HD3). repeat split; auto; lia.
  - exact Sz1.
  - exact Sz3.
  - eapply mval_ext; [exact HC3|]. intros i j Hi Hj. cbv beta. bsplit; try lia. reflexivity.
  - eapply mval_ext; [exact HD3|]. intros i j Hi Hj. cbv beta. bsplit; try lia. reflexivity.
  - lia.
  - rewrite map_length, seq_length. reflexivity.
  - rewrite map_length, seq_length. reflexivity.
  - apply pperm_indices; [lia|exact Bpr].
  - apply pperm_indices; [lia|exact Bpc].
  - intros nu j Hnu Hj. rewrite nth_map_pperm by exact Hnu. rewrite !abssqr_conj, ipperm_pperm. apply M1; [exact Hnu|]. apply ipperm_lt; [lia|exact Bpc|exact Hj].
  - intros nu i Hnu Hi Hni. rewrite nth_map_pperm by exact Hnu. rewrite ipperm_pperm. apply M2; [exact Hnu|].
    split; [|apply ipperm_lt; [lia|exact Bpr|exact Hi]].
    destruct (Nat.lt_ge_cases nu (ipperm pr k i)) as [H|H]; [exact H|exfalso]. apply Hni.
    rewrite firstn_map. apply in_map_iff. exists (ipperm pr k i). split; [apply pperm_ipperm|].
    replace k with (S nu + (k - S nu)) by lia. rewrite seq_app, firstn_app, seq_length, Nat.sub_diag, firstn_O, app_nil_r, firstn_all2 by (rewrite seq_length; lia).
    replace (S nu + (k - S nu)) with k by lia. apply in_seq. lia.
  - intros Hp i j Hi Hj Hor. unfold lowrank. 
    rewrite (sum_ext k _ (fun nu => C (ipperm pr k i) nu * D (ipperm pc k j) nu)%F) by (intros nu Hnu; rewrite (rl_conj_conj K RL); reflexivity).
    rewrite <- M5.
    + rewrite !pperm_ipperm. reflexivity.
    + intros nu Hnu E0. apply (Hp nu Hnu). rewrite nth_map_pperm by exact Hnu. rewrite ipperm_pperm, E0. apply (fconj_0 RL).
    + apply ipperm_lt; [lia|exact Bpr|exact Hi].
    + apply ipperm_lt; [lia|exact Bpc|exact Hj].
    + destruct Hor as [H|H]; apply in_map_iff in H as (x & <- & Hx); rewrite ipperm_pperm; apply in_seq in Hx; [left|right]; lia.
  - eapply keeps_trans; eapply keeps_mono; [|exact KP| |exact KK]; unfold pblk, rkblk in *; cbn [fst] in *; intros x Hx; [lia|].
    destruct Hx as [Hx|Hx]; apply inm_blk in Hx; lia.
Qed.
End AcaP6.
