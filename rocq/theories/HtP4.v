(** * Addition of dense matrices to low-rank matrices *)
From Coq Require Import Arith Lia List Bool Permutation Ring.
From Verif Require Import Fld Ord Prog Arr View Loop Line Spec Cluster Block Avector Amatrix AvectorP AmatrixP AmatrixP2 Rkmatrix RkSpec RkP Factor FactorSpec FactorP FactorP2 FactorP3 LrP
  Chol CholSpec CholP5 Qr QrSpec QrP QrP2 QrP3 QrP4 QrP7 QrP8 QrP10 CbmSpec CbmP CopSpec OrthoP OrthoP3 SepP SepP2 SepP3 Htrunc HtSpec HtP HtP2 HtP3.
Import ListNotations.

Section P.
Context {K : fops} (L : field_laws K) (O : qops K) (H : qlaws O) (HZ : exact_zero O).
Context (orth : Prop) (good : nat -> (nat -> K) -> Prop) (chosen : nat -> (nat -> K) -> nat -> Prop) (dom : nat -> nat -> Prop).
Context (svd : mat -> vec -> mat -> mat -> prog K unit) (rank : vec -> prog K nat) (Hsvd : svd_ok orth good dom svd) (Hrank : rank_ok good chosen rank).
Notation RL := (fl_ring K L).
Add Ring KringHt4 : (rl_ring K (fl_ring K L)).
Implicit Types (m : mem K) (bs : list nat) (l : list (ent (K := K))) (f g F FA FB U V C D : nat -> nat -> K) (s t : nat -> K) (r : rkm).
Notation up F := (tripart false false F).
Notation svdspec := (svdspec orth good).
Notation truncated := (truncated orth good chosen).
Notation trunc_post := (trunc_post orth good chosen).
Notation evec sigma s := (full (vm sigma) (fun i _ => s i)).

Lemma s_dense_sum nx ny m0 bs (Dm : nat -> Prop) l m alpha (at_ : bool) a fa x fx y fy z (Q : unit -> mem K -> Prop) : st m0 bs Dm (unk z :: l) m ->
  nth_error l nx = Some (full x fx) -> nth_error l ny = Some (full y fy) -> mval m0 a fa -> mblk a < next m0 -> ~ In (mblk a) bs ->
  (if at_ then mcols a else mrows a) = mrows z -> (if at_ then mrows a else mcols a) = mcols z -> mrows x = mrows z -> mrows y = mcols z -> mcols x = mcols y ->
  (forall g m', (forall i j, g i j = (lowrank (mcols x) fx fy i j + alpha * tr at_ fa i j)%F) -> st m0 bs Dm (full z g :: l) m' -> Q tt m') -> wp TT TT (dense_sum alpha at_ a x y z) m Q.
Proof.
  intros HS Hx Hy Ha Ba Na R1 R2 R3 R4 R5 HQ. unfold dense_sum.
  apply wp_bind. eapply (s_copy 0 at_) with (f := fa); [exact HS|reflexivity|eapply st_extval; eassumption|exact (st_ext _ _ _ _ _ 0 _ a HS eq_refl Ba Na)|exact R1|exact R2|]. cbn [setn]. intros m1 S1.
  apply wp_bind. eapply wp_conseq with (Q := fun _ m2 => st m0 bs Dm (full z (fun i j => tr at_ fa i j * alpha)%F :: l) m2).
  { destruct (feqb alpha f1) eqn:E.
    - apply (proj1 (fl_eqb K L _ _)) in E. subst alpha. cbn [wp]. eapply st_conv with (n := 0) in S1; [exact S1|reflexivity|]. intros i j _ _ _. split; [exact I|]. ring.
    - eapply (s_scale 0); [exact S1|reflexivity|]. cbn [setn]. intros m2 S2. exact S2. }
  cbv beta. intros [] m2 S2.
  eapply (s_addmul L 0) with (f := fx) (g := fy); [exact S2|reflexivity|eapply (st_mval _ _ _ _ _ (S nx)); [exact S2|exact Hx]|eapply (st_mval _ _ _ _ _ (S ny)); [exact S2|exact Hy]| | |exact R3|exact R4|exact R5|].
  { exact (st_neq _ _ _ _ _ (S nx) 0 _ _ S2 Hx eq_refl ltac:(lia)). }
  { exact (st_neq _ _ _ _ _ (S ny) 0 _ _ S2 Hy eq_refl ltac:(lia)). }
  cbn [setn]. intros m3 S3. eapply HQ; [|exact S3]. intros i j. cbv beta. unfold lowrank. cbn [tr]. ring.
Qed.

Lemma s_svd_r m0 bs (Dm : nat -> Prop) l m z f k (Q : vec * mat * (mat * mat * vec) -> mem K -> Prop) : st m0 bs Dm (full z f :: l) m -> mcols z = k -> k <= mrows z -> dom k k ->
  (forall tau z1 u vt sigma F t U s V m', qrfac O (mrows z) k f F t -> svdspec k k (up F) U s V -> vdim tau = k -> mrows u = k -> mcols u = k -> mrows vt = k -> mcols vt = k -> vdim sigma = k ->
     st m0 bs Dm (evec sigma s :: full vt V :: full u U :: unk z1 :: evec tau t :: full z F :: l) m' -> Q (tau, z1, (u, vt, sigma)) m') ->
  wp TT TT (svd_r O svd z k) m Q.
Proof.
  intros HS Hc Hr Hd HQ. unfold svd_r. apply wp_bind. eapply s_initv; [exact HS|]. intros tau m1 Et S1.
  apply wp_bind. eapply (s_qr L O H 1 0) with (A := z) (tau := tau); [exact S1|reflexivity|reflexivity|lia|lia|]. cbn [setn]. intros F t m2 HF S2.
  apply wp_bind. eapply s_init; [exact S2|]. intros z1 m3 Er Ek S3.
  apply wp_bind. eapply (s_copyupper 0) with (f := F); [exact S3|reflexivity|eapply (st_mval _ _ _ _ _ 2); [exact S3|reflexivity]| |lia|lia|].
  { exact (st_neq _ _ _ _ _ 2 0 _ _ S3 eq_refl eq_refl ltac:(lia)). }
  cbn [setn]. intros m4 S4. apply wp_bind.
  eapply (s_svd_of orth good dom svd Hsvd 0) with (c := z1) (C := z1); [exact S4|reflexivity|auto|reflexivity|apply (st_own _ _ _ _ _ 0 _ _ _ S4 eq_refl)|eapply (st_mval _ _ _ _ _ 0); [exact S4|reflexivity]|rewrite Er, Ek; exact Hd|].
  cbn [setn]. rewrite Er, Ek, Nat.min_id. intros u vt sigma U s V m5 HV E1 E2 E3 E4 E5 S5. cbn [wp]. rewrite Hc in HF.
  eapply (HQ tau z1 u vt sigma F t U s V); try eassumption; lia.
Qed.

Lemma mval_subval m A g h rows cols : mval m A (subval 0 rows 0 cols g h) -> rows <= mrows A -> cols <= mcols A -> mval m (subm A 0 rows 0 cols) g.
Proof.
  intros HA Hr Hc. pose proof (mval_subm m A _ 0 rows 0 cols HA ltac:(lia) ltac:(lia)) as HX. eapply mval_tr; [exact HX|]. cbn [subm mrows mcols]. intros i j Hi Hj. unfold subval.
  bsplit; try lia. rewrite !Nat.sub_0_r. reflexivity.
Qed.
Lemma diag_cols (c n : nat) s (U U' : nat -> nat -> K) k : (forall i j, i < k -> j < n -> tr true U' i j = (f1 * s i * tr true U i j)%F) -> (forall i, i < c -> fconj (s i) = s i) -> k <= c ->
  forall i j, i < n -> j < k -> U' i j = (U i j * s j)%F.
Proof.
  intros HU Hs Hk i j Hi Hj. assert (HE : fconj (U' i j) = (f1 * s j * fconj (U i j))%F) by (apply (HU j i); assumption).
  rewrite <- (rl_conj_conj K RL (U' i j)), HE, !(rl_conj_mul K RL), (rl_conj_conj K RL), Hs, (fconj_1 RL) by lia. ring.
Qed.

Lemma wp_add_dense alpha (at_ : bool) a fa r m D (Q : rkm -> mem K -> Prop) : rkown m r -> rkrep m r D -> mval m a fa -> mblk a < next m -> ~ In (mblk a) (rbs r) ->
  (if at_ then mcols a else mrows a) = mrows (rk_A r) -> (if at_ then mrows a else mcols a) = mrows (rk_B r) ->
  (let k := Nat.min (mrows (rk_A r)) (mrows (rk_B r)) in dom k k) ->
  (forall r' m', trunc_post (Nat.min (mrows (rk_A r)) (mrows (rk_B r))) m r (fun i j => D i j + (if mrows (rk_A r) <? mrows (rk_B r) then fconj alpha else alpha) * tr at_ fa i j)%F r' m' -> Q r' m') ->
  wp TT TT (add_amatrix_rkmatrix O svd rank alpha at_ a r) m Q.
Proof.
  intros HO (f & g & Hf & Hg & _ & _ & HD) Ha Ba Na R1 R2 Hd HQ. cbv zeta in Hd. pose proof (rst_start _ _ _ _ HO Hf Hg) as S0. destruct HO as (_ & _ & _ & _ & _ & _ & _ & Ca & Cb & _). unfold add_amatrix_rkmatrix.
  apply wp_bind, wp_assert; [apply Nat.eqb_eq, R1|]. apply wp_bind, wp_assert; [apply Nat.eqb_eq, R2|]. cbv zeta.
  destruct (Nat.ltb_spec (mrows (rk_B r)) (mrows (rk_A r))) as [Lt|Ge].
  { destruct (Nat.ltb_spec (mrows (rk_A r)) (mrows (rk_B r))) as [?|_]; [lia|]. rewrite Nat.min_r in * by lia.
    apply wp_bind. eapply s_init; [exact S0|]. intros z m1 Rz Cz S1.
    apply wp_bind. eapply (s_dense_sum 0 1); [exact S1|reflexivity|reflexivity|exact Ha|exact Ba|exact Na|lia|lia|lia|lia|lia|]. intros G m2 HG S2.
    apply wp_bind. eapply s_svd_r; [exact S2|exact Cz|lia|exact Hd|]. intros tau z1 u vt sigma F t U s V m3 HF HV Dt E1 E2 E3 E4 E5 S3. cbn iota beta.
    pose proof HV as (V1 & V2 & V3 & V4). rewrite Nat.min_id in V2, V3.
    apply wp_bind. eapply (s_rank good chosen rank Hrank 0); [exact S3|reflexivity|rewrite E5; exact V3|]. intros k Hk HCh. rewrite E5 in Hk, HCh.
    apply wp_bind. eapply (s_setrank 6 7); [exact S3|reflexivity|reflexivity|lia|]. cbn [setn]. intros r' m4 A1 A2 C1 C2 Rk S4.
    apply wp_bind. eapply (s_clear 6); [exact S4|reflexivity|]. cbn [setn]. intros m5 S5.
    apply wp_bind, wp_init_sub_amatrix; [lia|lia|].
    apply wp_bind. eapply (s_copysub_on 6 false) with (f := U); [exact S5|reflexivity| | |].
    { apply (mval_subm m5 u U 0 (mrows (rk_B r)) 0 k); [eapply (st_mval _ _ _ _ _ 2); [exact S5|reflexivity]|lia|lia]. }
    { exact (st_neq _ _ _ _ _ 2 6 _ _ S5 eq_refl eq_refl ltac:(lia)). }
    cbn [setn subm mrows mcols tr]. intros m6 S6.
    apply wp_bind. eapply (s_qreval L 6) with (F := F) (t := t); [exact S6|reflexivity|eapply (st_mval _ _ _ _ _ 5); [exact S6|reflexivity]|eapply (st_vval 4); [exact S6|reflexivity]| | |lia|lia|].
    { exact (st_neq _ _ _ _ _ 5 6 _ _ S6 eq_refl eq_refl ltac:(lia)). }
    { exact (st_neq _ _ _ _ _ 4 6 _ _ S6 eq_refl eq_refl ltac:(lia)). }
    cbn [setn]. intros m7 S7. apply wp_bind, s_unsub. apply wp_bind. eapply (s_clear 7); [exact S7|reflexivity|]. cbn [setn]. intros m8 S8.
    apply wp_bind, wp_init_sub_amatrix; [lia|lia|].
    apply wp_bind. eapply (s_diagp L 1 f1 false false 0 k 0 (mrows (rk_B r))) with (s := s); [exact S8|reflexivity|lia|lia|eapply (st_vval 0); [exact S8|reflexivity]| |intros i Hi; apply V2; lia|lia|].
    { exact (st_neq _ _ _ _ _ 0 1 _ _ S8 eq_refl eq_refl ltac:(lia)). }
    cbn [setn tr Nat.add]. intros V' m9 HV' S9.
    apply wp_bind. eapply (s_copy 7 true) with (f := V'); [exact S9|reflexivity| | |cbn; lia|cbn; lia|].
    { eapply mval_subval; [eapply (st_mval _ _ _ _ _ 1); [exact S9|reflexivity]|lia|lia]. }
    { exact (st_neq _ _ _ _ _ 1 7 _ _ S9 eq_refl eq_refl ltac:(lia)). }
    cbn [setn]. intros m10 S10. apply wp_bind, s_unsub.
    apply wp_bind. eapply (s_uninitv 4); [exact S10|reflexivity|]. cbn [deln]. intros m11 S11.
    apply wp_bind. eapply (s_uninit 3); [exact S11|reflexivity|]. cbn [deln]. intros m12 S12.
    apply wp_bind. eapply (s_uninitv 0); [exact S12|reflexivity|]. cbn [deln]. intros m13 S13.
    apply wp_bind. eapply (s_uninit 0); [exact S13|reflexivity|]. cbn [deln]. intros m14 S14.
    apply wp_bind. eapply (s_uninit 0); [exact S14|reflexivity|]. cbn [deln]. intros m15 S15.
    apply wp_bind. eapply (s_uninit 0); [exact S15|reflexivity|]. cbn [deln]. intros m16 S16. cbn [wp]. apply HQ.
    eapply rst_end; [exact S16|lia|lia|exact A1|exact A2| |lia]. rewrite Rk. rewrite Rz in HF.
    eapply truncated_ext; [| |eapply (math_r L O HZ); [exact HF|lia|exact HV|exact Hk|exact HCh]].
    - intros i j Hi Hj. cbv beta. rewrite HD, HG, <- Ca by assumption. reflexivity.
    - intros i j Hi Hj. eapply lowrank_ext; [| |exact Hi|exact Hj].
      + intros i' q Hi' Hq. replace (Nat.min (mrows z) (mcols z)) with (mrows (rk_B r)) by lia. rewrite Rz. apply (qpart_mmul L); [lia| |].
        * intros p Hp. cbv beta. bsplit; try lia. reflexivity.
        * intros p Hp Hp2. cbv beta. bsplit; try lia; reflexivity.
      + intros i' q Hi' Hq. cbn [tr]. rewrite HV' by assumption. f_equal. ring. }
  destruct (Nat.ltb_spec (mrows (rk_A r)) (mrows (rk_B r))) as [Lt|Ge2].
  { rewrite Nat.min_l in * by lia.
    apply wp_bind. eapply s_init; [exact S0|]. intros z m1 Rz Cz S1.
    apply wp_bind. eapply (s_dense_sum 1 0); [exact S1|reflexivity|reflexivity|exact Ha|exact Ba|exact Na|destruct at_; cbn; lia|destruct at_; cbn; lia|lia|lia|lia|]. intros G m2 HG S2.
    apply wp_bind. eapply s_svd_r; [exact S2|exact Cz|lia|exact Hd|]. intros tau z1 u vt sigma F t U s V m3 HF HV Dt E1 E2 E3 E4 E5 S3. cbn iota beta.
    pose proof HV as (V1 & V2 & V3 & V4). rewrite Nat.min_id in V2, V3.
    apply wp_bind. eapply (s_rank good chosen rank Hrank 0); [exact S3|reflexivity|rewrite E5; exact V3|]. intros k Hk HCh. rewrite E5 in Hk, HCh.
    apply wp_bind. eapply (s_setrank 6 7); [exact S3|reflexivity|reflexivity|lia|]. cbn [setn]. intros r' m4 A1 A2 C1 C2 Rk S4.
    apply wp_bind. eapply (s_clear 6); [exact S4|reflexivity|]. cbn [setn]. intros m5 S5.
    apply wp_bind, wp_init_sub_amatrix; [lia|lia|].
    apply wp_bind. eapply (s_copy 6 true) with (f := V); [exact S5|reflexivity| | |cbn; lia|cbn; lia|].
    { apply (mval_subm m5 vt V 0 k 0 (mrows (rk_A r))); [eapply (st_mval _ _ _ _ _ 1); [exact S5|reflexivity]|lia|lia]. }
    { exact (st_neq _ _ _ _ _ 1 6 _ _ S5 eq_refl eq_refl ltac:(lia)). }
    cbn [setn]. intros m6 S6. apply wp_bind, s_unsub. apply wp_bind. eapply (s_clear 7); [exact S6|reflexivity|]. cbn [setn]. intros m7 S7.
    apply wp_bind, wp_init_sub_amatrix; [lia|lia|].
    apply wp_bind. eapply (s_diagp L 2 f1 true true 0 (mrows (rk_A r)) 0 k) with (s := s); [exact S7|reflexivity|lia|lia|eapply (st_vval 0); [exact S7|reflexivity]| |intros i Hi; apply V2; lia|lia|].
    { exact (st_neq _ _ _ _ _ 0 2 _ _ S7 eq_refl eq_refl ltac:(lia)). }
    cbn [setn Nat.add]. intros U' m8 HU S8. pose proof (diag_cols (mrows (rk_A r)) (mrows (rk_A r)) s U U' k HU V2 Hk) as HU'.
    apply wp_bind. eapply (s_copysub_on 7 false) with (f := U'); [exact S8|reflexivity| | |].
    { eapply mval_subval; [eapply (st_mval _ _ _ _ _ 2); [exact S8|reflexivity]|lia|lia]. }
    { exact (st_neq _ _ _ _ _ 2 7 _ _ S8 eq_refl eq_refl ltac:(lia)). }
    cbn [setn subm mrows mcols tr]. intros m9 S9.
    apply wp_bind. eapply (s_qreval L 7) with (F := F) (t := t); [exact S9|reflexivity|eapply (st_mval _ _ _ _ _ 5); [exact S9|reflexivity]|eapply (st_vval 4); [exact S9|reflexivity]| | |lia|lia|].
    { exact (st_neq _ _ _ _ _ 5 7 _ _ S9 eq_refl eq_refl ltac:(lia)). }
    { exact (st_neq _ _ _ _ _ 4 7 _ _ S9 eq_refl eq_refl ltac:(lia)). }
    cbn [setn]. intros m10 S10. apply wp_bind, s_unsub.
    apply wp_bind. eapply (s_uninitv 4); [exact S10|reflexivity|]. cbn [deln]. intros m11 S11.
    apply wp_bind. eapply (s_uninit 3); [exact S11|reflexivity|]. cbn [deln]. intros m12 S12.
    apply wp_bind. eapply (s_uninitv 0); [exact S12|reflexivity|]. cbn [deln]. intros m13 S13.
    apply wp_bind. eapply (s_uninit 0); [exact S13|reflexivity|]. cbn [deln]. intros m14 S14.
    apply wp_bind. eapply (s_uninit 0); [exact S14|reflexivity|]. cbn [deln]. intros m15 S15.
    apply wp_bind. eapply (s_uninit 0); [exact S15|reflexivity|]. cbn [deln]. intros m16 S16. cbn [wp]. apply HQ.
    eapply rst_end; [exact S16|lia|lia|exact A1|exact A2| |lia]. rewrite Rk. rewrite Rz in HF.
    eapply truncated_ext; [| |apply (truncated_sym L); eapply (math_r L O HZ); [exact HF|lia|exact HV|exact Hk|exact HCh]].
    - intros i j Hi Hj. cbv beta. rewrite HD, HG by assumption. rewrite (rl_conj_add K RL), (rl_conj_mul K RL), (lowrank_conj L), Cb. f_equal. f_equal.
      destruct at_; cbn [tr negb]; [|rewrite (rl_conj_conj K RL)]; reflexivity.
    - intros i j Hi Hj. cbv beta. rewrite (lowrank_conj L).
      transitivity (lowrank k (tr true V) (qpart (mrows (rk_B r)) F t (mrows (rk_A r)) (fun i q => U i q * s q)%F) i j).
      + eapply lowrank_ext; [| |exact Hi|exact Hj].
        * intros i' q _ _. reflexivity.
        * intros i' q Hi' Hq. replace (Nat.min (mrows z) (mcols z)) with (mrows (rk_A r)) by lia. rewrite Rz. apply (qpart_mmul L); [lia| |].
          -- intros p Hp. cbv beta. bsplit; try lia. apply HU'; assumption.
          -- intros p Hp Hp2. cbv beta. bsplit; try lia; reflexivity.
      + unfold lowrank. apply sum_ext. intros q Hq. unfold qpart. rewrite !(sum_conj RL), <- !(sum_mul_l RL). apply sum_ext. intros p _. cbn [tr]. rewrite !(rl_conj_mul K RL). ring. }
  assert (Eq : mrows (rk_B r) = mrows (rk_A r)) by lia. rewrite Eq, Nat.min_id in *.
  apply wp_bind. eapply s_init; [exact S0|]. intros z m1 Rz Cz S1.
  apply wp_bind. eapply (s_dense_sum 0 1); [exact S1|reflexivity|reflexivity|exact Ha|exact Ba|exact Na|lia|lia|lia|lia|lia|]. intros G m2 HG S2.
  apply wp_bind. eapply (s_svd_of orth good dom svd Hsvd 0) with (c := z) (C := z); [exact S2|reflexivity|auto|reflexivity|apply (st_own _ _ _ _ _ 0 _ _ _ S2 eq_refl)|eapply (st_mval _ _ _ _ _ 0); [exact S2|reflexivity]|rewrite Rz, Cz; exact Hd|].
  cbn [setn]. rewrite Rz, Cz, Nat.min_id. intros u vt sigma U s V m3 HV E1 E2 E3 E4 E5 S3. cbn iota beta.
  pose proof HV as (V1 & V2 & V3 & V4). rewrite Nat.min_id in V2, V3.
  apply wp_bind. eapply (s_rank good chosen rank Hrank 0); [exact S3|reflexivity|rewrite E5; exact V3|]. intros k Hk HCh. rewrite E5 in Hk, HCh.
  apply wp_bind. eapply (s_setrank 4 5); [exact S3|reflexivity|reflexivity|lia|]. cbn [setn]. intros r' m4 A1 A2 C1 C2 Rk S4.
  apply wp_bind. eapply (s_clear 4); [exact S4|reflexivity|]. cbn [setn]. intros m5 S5.
  apply wp_bind, wp_init_sub_amatrix; [lia|lia|].
  apply wp_bind. eapply (s_diagp L 2 f1 true true 0 (mrows (rk_A r)) 0 k) with (s := s); [exact S5|reflexivity|lia|lia|eapply (st_vval 0); [exact S5|reflexivity]| |intros i Hi; apply V2; lia|lia|].
  { exact (st_neq _ _ _ _ _ 0 2 _ _ S5 eq_refl eq_refl ltac:(lia)). }
  cbn [setn Nat.add]. intros U' m6 HU S6. pose proof (diag_cols (mrows (rk_A r)) (mrows (rk_A r)) s U U' k HU V2 Hk) as HU'.
  apply wp_bind. eapply (s_copy 4 false) with (f := U'); [exact S6|reflexivity| | |cbn; lia|cbn; lia|].
  { eapply mval_subval; [eapply (st_mval _ _ _ _ _ 2); [exact S6|reflexivity]|lia|lia]. }
  { exact (st_neq _ _ _ _ _ 2 4 _ _ S6 eq_refl eq_refl ltac:(lia)). }
  cbn [setn tr]. intros m7 S7. apply wp_bind, s_unsub. apply wp_bind. eapply (s_clear 5); [exact S7|reflexivity|]. cbn [setn]. intros m8 S8.
  apply wp_bind, wp_init_sub_amatrix; [lia|lia|].
  apply wp_bind. eapply (s_copy 5 true) with (f := V); [exact S8|reflexivity| | |cbn; lia|cbn; lia|].
  { apply (mval_subm m8 vt V 0 k 0 (mrows (rk_A r))); [eapply (st_mval _ _ _ _ _ 1); [exact S8|reflexivity]|lia|lia]. }
  { exact (st_neq _ _ _ _ _ 1 5 _ _ S8 eq_refl eq_refl ltac:(lia)). }
  cbn [setn]. intros m9 S9. apply wp_bind, s_unsub.
  apply wp_bind. eapply (s_uninitv 0); [exact S9|reflexivity|]. cbn [deln]. intros m10 S10.
  apply wp_bind. eapply (s_uninit 0); [exact S10|reflexivity|]. cbn [deln]. intros m11 S11.
  apply wp_bind. eapply (s_uninit 0); [exact S11|reflexivity|]. cbn [deln]. intros m12 S12.
  apply wp_bind. eapply (s_uninit 0); [exact S12|reflexivity|]. cbn [deln]. intros m13 S13. cbn [wp]. apply HQ.
  eapply rst_end; [exact S13|lia|lia|exact A1|lia| |lia]. rewrite Rk. rewrite Eq.
  eapply truncated_ext; [| |eapply (math_ab L); [exact HV|rewrite Nat.min_id; exact Hk|rewrite Nat.min_id; exact HCh]].
  - intros i j Hi Hj. cbv beta. rewrite HD, HG, <- Ca by assumption. reflexivity.
  - intros i j Hi Hj. eapply lowrank_ext; [| |exact Hi|exact Hj].
    + intros i' q Hi' Hq. apply HU'; assumption.
    + intros i' q _ _. reflexivity.
Qed.
End P.
