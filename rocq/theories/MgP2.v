(** * Merging of low-rank matrices: programs *)
From Coq Require Import Arith Lia List Bool Permutation Ring.
From Verif Require Import Fld Ord Prog Arr View Loop Line Spec Cluster Block Avector Amatrix AvectorP AmatrixP AmatrixP2 Rkmatrix RkSpec RkP Factor FactorSpec FactorP FactorP2 FactorP3 LrP
  Chol CholSpec CholP5 Qr QrSpec QrP QrP2 QrP3 QrP4 QrP7 QrP8 QrP10 CbmSpec CbmP CopSpec OrthoP OrthoP3 SepP SepP2 SepP3 Htrunc HtSpec HtP HtP2 HtP3 Hadd MgP.
Import ListNotations.

Section P.
Context {K : fops} (L : field_laws K) (O : qops K) (H : qlaws O) (HZ : exact_zero O).
Context (orth : Prop) (good : nat -> (nat -> K) -> Prop) (chosen : nat -> (nat -> K) -> nat -> Prop) (dom : nat -> nat -> Prop).
Context (svd : mat -> vec -> mat -> mat -> prog K unit) (rank : vec -> prog K nat) (Hsvd : svd_ok orth good dom svd) (Hrank : rank_ok good chosen rank).
Notation RL := (fl_ring K L).
Add Ring KringMg2 : (rl_ring K (fl_ring K L)).
Implicit Types (m : mem K) (D : nat -> Prop) (bs : list nat) (l : list (ent (K := K))) (f g F U V C : nat -> nat -> K) (s t : nat -> K).
Notation up F := (tripart false false F).
Notation evec sigma s := (full (vm sigma) (fun i _ => s i)).

(** A matrix that can be read: one of the list, or one that was there before *)
Definition source (m0 : mem K) (bs : list nat) (l : list (ent (K := K))) (y : mat) (f : nat -> nat -> K) : Prop :=
  (exists n, nth_error l n = Some (full y f)) \/ (mval m0 y f /\ mblk y < next m0 /\ ~ In (mblk y) bs).
Lemma source_mval m0 bs D l m y f : st m0 bs D l m -> source m0 bs l y f -> mval m y f.
Proof. intros HS [(n & Hn)|(H1 & H2 & H3)]; [eapply st_mval; eassumption|eapply st_extval; eassumption]. Qed.
Lemma source_cons m0 bs l y f e : source m0 bs l y f -> source m0 bs (e :: l) y f.
Proof. intros [(n & Hn)|H0]; [left; exists (S n); exact Hn|right; exact H0]. Qed.
Lemma source_neq m0 bs D l m y f e : st m0 bs D (e :: l) m -> source m0 bs l y f -> mblk y <> mblk (emat e).
Proof.
  intros HS [(n & Hn)|(H1 & H2 & H3)].
  - exact (st_neq _ _ _ _ _ (S n) 0 _ _ HS Hn eq_refl ltac:(lia)).
  - exact (st_ext _ _ _ _ _ 0 _ y HS eq_refl H2 H3).
Qed.

Lemma s_beside m0 bs D l m n k1 x1 f1' k2 x2 f2' (Q : mat -> mem K -> Prop) : st m0 bs D l m -> source m0 bs l x1 f1' -> source m0 bs l x2 f2' ->
  mrows x1 = n -> mcols x1 = k1 -> mrows x2 = n -> mcols x2 = k2 ->
  (forall b m', mrows b = n -> mcols b = k1 + k2 -> st m0 bs D (full b (aside k1 f1' f2') :: l) m' -> Q b m') ->
  wp TT TT (beside n k1 x1 k2 x2) m Q.
Proof.
  intros HS H1 H2 R1 C1 R2 C2 HQ. unfold beside. apply wp_bind. eapply s_init; [exact HS|]. intros b m1 Rb Cb S1.
  apply wp_bind, wp_init_sub_amatrix; [lia|lia|].
  apply wp_bind. eapply (s_copyp 0 false 0 n 0 k1) with (f := f1') (B := b); [exact S1|reflexivity|lia|lia|eapply source_mval; [exact S1|apply source_cons, H1]|exact (source_neq _ _ _ _ _ _ _ _ S1 H1)|lia|lia|].
  cbn [setn tr]. intros m2 S2. apply wp_bind, s_unsub. apply wp_bind, wp_init_sub_amatrix; [lia|lia|].
  apply wp_bind. eapply (s_copyp 0 false 0 n k1 k2) with (f := f2') (B := b); [exact S2|reflexivity|lia|lia|eapply source_mval; [exact S2|apply source_cons, H2]|exact (source_neq _ _ _ _ _ _ _ _ S2 H2)|lia|lia|].
  cbn [setn tr]. intros m3 S3. apply wp_bind, s_unsub. cbn [wp]. apply HQ; [exact Rb|exact Cb|].
  match type of S3 with st _ _ _ (?e :: _) _ => eapply (st_conv _ _ _ _ _ 0) in S3; [exact S3|reflexivity|] end. cbv beta. intros i j Hi Hj _. unfold insub. split; [lia|].
  unfold aside, subval. bsplit; try lia; rewrite ?Nat.sub_0_r; reflexivity.
Qed.

Lemma s_qrcopy m0 bs D l m y f k (Q : mat * vec -> mem K -> Prop) : st m0 bs D l m -> source m0 bs l y f -> mcols y = k ->
  (forall a tau F t m', mrows a = mrows y -> mcols a = k -> vdim tau = Nat.min (mrows y) k -> qrfac O (mrows y) k f F t ->
     st m0 bs D (evec tau t :: full a F :: l) m' -> Q (a, tau) m') ->
  wp TT TT (qr_copy O y k) m Q.
Proof.
  intros HS Hy Hc HQ. unfold qr_copy. apply wp_bind. eapply s_init; [exact HS|]. intros a m1 Ra Ca S1.
  apply wp_bind. eapply (s_copy 0 false) with (f := f); [exact S1|reflexivity|eapply source_mval; [exact S1|apply source_cons, Hy]|exact (source_neq _ _ _ _ _ _ _ _ S1 Hy)|lia|lia|].
  cbn [setn tr]. intros m2 S2. apply wp_bind. eapply s_initv; [exact S2|]. intros tau m3 Et S3.
  apply wp_bind. eapply (s_qr L O H 1 0) with (A := a) (tau := tau); [exact S3|reflexivity|reflexivity|lia|lia|]. cbn [setn]. intros F t m4 HF S4. cbn [wp].
  rewrite Ra, Ca in HF. eapply HQ; try eassumption.
Qed.

Lemma st_subfull m0 bs D l m m' n X g roff rows coff cols g' : st m0 bs D l m -> nth_error l n = Some (full X g) -> roff + rows <= mrows X -> coff + cols <= mcols X ->
  keeps (inm (subm X roff rows coff cols)) m m' -> mval m' (subm X roff rows coff cols) g' -> st m0 bs D (setn n (full X (subval roff rows coff cols g' g)) l) m'.
Proof.
  intros HS Hn Hr Hc Hk Hv. pose proof (st_writep _ _ _ _ _ _ n X _ g roff rows coff cols g' HS Hn Hr Hc Hk Hv) as S1.
  match type of S1 with st _ _ _ (setn _ ?e _) _ => eapply (st_conv _ _ _ _ _ n) in S1; [rewrite setn_setn in S1; exact S1| |] end.
  - rewrite nth_setn, Nat.eqb_refl, (nth_lt _ _ _ Hn). reflexivity.
  - cbv beta. intros i j _ _ _. split; [left; exact I|reflexivity].
Qed.
Lemma s_trievalp n coff kc m0 bs D l m A f X g (Q : unit -> mem K -> Prop) : st m0 bs D l m -> nth_error l n = Some (full X g) -> mval m A f -> mblk A <> mblk X ->
  coff + kc <= mcols X -> mrows A <= kc -> mcols A <= kc ->
  (forall g' m', (forall i k, i < mrows A -> k < mrows X -> fconj (g' k (coff + i)%nat) = sum (mcols A) (fun p => up f i p * fconj (g k (coff + p)%nat))%F) ->
     (forall k j, k < mrows X -> j < mcols X -> j < coff \/ coff + kc <= j -> g' k j = g k j) -> st m0 bs D (setn n (full X g') l) m' -> Q tt m') ->
  wp TT TT (triangulareval_amatrix false false false A true (subm X 0 (mrows X) coff kc)) m Q.
Proof.
  intros HS Hn HA Hne Hc E1 E2 HQ. destruct (st_own _ _ _ _ _ _ _ _ _ HS Hn) as (_ & _ & W & _).
  eapply (wp_triangulareval_amatrix RL TT TT false false false A true (subm X 0 (mrows X) coff kc) f (fun i j => g (0 + i) (coff + j))%nat); [apply mwf_subm; [exact W|lia]|apply mval_pval, HA| | |apply TTr|apply TTw|exact E1|exact E2|].
  { apply mval_subm; [eapply st_mval; eassumption|lia|lia]. }
  { intros a Ha Hb. apply inp_inm in Ha. apply inm_subm in Hb; [|lia|lia]. eapply (blk_disj A X); eassumption. }
  intros g' m' HG1 _ Hv Hk. cbn [subm mrows mcols tr Nat.add] in HG1.
  pose proof (st_subfull _ _ _ _ _ _ n X g 0 (mrows X) coff kc g' HS Hn ltac:(lia) Hc Hk Hv) as S1.
  eapply HQ; [| |exact S1].
  - intros i k Hi Hk'. specialize (HG1 i k Hi Hk'). cbn in HG1. rewrite <- HG1. unfold subval. bsplit; try lia. rewrite Nat.sub_0_r. replace (coff + i - coff) with i by lia. reflexivity.
  - intros k j Hk' Hj Hout. unfold subval. bsplit; try lia; reflexivity.
Qed.
Lemma s_qrevalp n roff m0 bs D l m A F tau t X g (Q : unit -> mem K -> Prop) : st m0 bs D l m -> nth_error l n = Some (full X g) -> mval m A F -> vval m tau t -> mblk A <> mblk X -> vblk tau <> mblk X ->
  vdim tau = Nat.min (mrows A) (mcols A) -> roff + mrows A <= mrows X ->
  (forall m', st m0 bs D (setn n (full X (subval roff (mrows A) 0 (mcols X) (mmul (mrows A) (qmat (mrows A) F t (Nat.min (mrows A) (mcols A))) (fun i j => g (roff + i)%nat j)) g)) l) m' -> Q tt m') ->
  wp TT TT (qreval_amatrix false A tau (subm X roff (mrows A) 0 (mcols X))) m Q.
Proof.
  intros HS Hn HA Ht NA NT Ed Er HQ. destruct (st_own _ _ _ _ _ _ _ _ _ HS Hn) as (_ & _ & W & _).
  eapply (wp_qreval_mat L TT TT false A tau (subm X roff (mrows A) 0 (mcols X)) F t (fun i j => g (roff + i) (0 + j))%nat); [apply mwf_subm; [exact W|lia]|apply mval_pval, HA| | |cbn [subm mrows]; lia| | |apply TTr|apply TTr|apply TTw|].
  { intros i Hi. apply Ht. lia. }
  { apply mval_subm; [eapply st_mval; eassumption|lia|lia]. }
  { intros a Ha Hb. apply inp_inm in Ha. apply inm_subm in Hb; [|lia|lia]. eapply (blk_disj A X); eassumption. }
  { intros a Ha Hb. apply inm_subm in Hb; [|lia|lia]. eapply (vm_disj tau X NT); eassumption. }
  intros m' Hv Hk. apply HQ. eapply st_subfull; [exact HS|exact Hn|exact Er|lia|exact Hk|]. eapply mval_tr; [exact Hv|]. cbn [subm mrows mcols Nat.add]. intros i j Hi Hj.
  rewrite Ed, Nat.min_id. unfold hitm, hit. apply Nat.ltb_lt in Hi. rewrite Hi. reflexivity.
Qed.
Lemma s_times_r na nb nc n boff coff m0 bs D l m a F b g c ok h (Q : unit -> mem K -> Prop) : st m0 bs D l m -> nth_error l na = Some (full a F) -> nth_error l nb = Some (full b g) -> nth_error l nc = Some (c, ok, h) ->
  na <> nb -> na <> nc -> nb <> nc -> mrows b = n -> mrows c = n -> boff + mcols a <= mcols b -> coff + Nat.min (mrows a) (mcols a) <= mcols c ->
  (forall g' m', (forall k j, k < n -> j < mcols b -> j < boff \/ boff + mcols a <= j -> g' k j = g k j) ->
     st m0 bs D (setn nc (c, (fun i j => ok i j \/ insub 0 n coff (Nat.min (mrows a) (mcols a)) i j),
                   subval 0 n coff (Nat.min (mrows a) (mcols a)) (fun i r => sum (mcols a) (fun p => g i (boff + p)%nat * fconj (up F r p))%F) h) (setn nb (full b g') l)) m' -> Q tt m') ->
  wp TT TT (times_r n a b boff c coff) m Q.
Proof.
  intros HS Ha Hb Hc N1 N2 N3 Rb Rc Cb Cc HQ. unfold times_r. cbv zeta. set (kr := Nat.min (mrows a) (mcols a)) in *. assert (Hkr : kr <= mrows a /\ kr <= mcols a) by (unfold kr; lia). clearbody kr.
  apply wp_bind, wp_init_sub_amatrix; [lia|lia|]. apply wp_bind, wp_init_sub_amatrix; [lia|lia|].
  assert (HN : mblk a <> mblk b) by exact (st_neq _ _ _ _ _ na nb _ _ HS Ha Hb N1).
  apply wp_bind. rewrite <- Rb. eapply (s_trievalp nb boff (mcols a)) with (f := F) (A := subm a 0 kr 0 (mcols a)); [exact HS|exact Hb| |exact HN|exact Cb|cbn [subm mrows]; lia|cbn [subm mcols]; lia|].
  { apply (mval_subm m a F 0 kr 0 (mcols a)); [eapply st_mval; [exact HS|exact Ha]|lia|lia]. }
  cbn [subm mrows mcols]. intros g' m1 HG1 HG2 S1. apply wp_bind, s_unsub. apply wp_bind, s_unsub.
  apply wp_bind, wp_init_sub_amatrix; [lia|lia|]. apply wp_bind, wp_init_sub_amatrix; [lia|lia|].
  assert (Hc1 : nth_error (setn nb (full b g') l) nc = Some (c, ok, h)) by (rewrite nth_setn; destruct (Nat.eqb_spec nc nb); [congruence|exact Hc]).
  assert (Hb1 : nth_error (setn nb (full b g') l) nb = Some (full b g')) by (rewrite nth_setn, Nat.eqb_refl, (nth_lt _ _ _ Hb); reflexivity).
  apply wp_bind. eapply (s_copyp nc false 0 (mrows b) coff kr) with (f := fun i j => g' (0 + i)%nat (boff + j)%nat) (B := c); [exact S1|exact Hc1|lia|lia| | |reflexivity|reflexivity|].
  { apply mval_subm; [eapply st_mval; [exact S1|exact Hb1]|lia|lia]. }
  { exact (st_neq _ _ _ _ _ nb nc _ _ S1 Hb1 Hc1 N3). }
  cbn [tr Nat.add]. intros m2 S2. apply wp_bind, s_unsub. apply s_unsub. rewrite <- Rb in HQ. eapply HQ; [exact HG2|].
  match type of S2 with st _ _ _ (setn _ ?e _) _ => eapply (st_conv _ _ _ _ _ nc) in S2; [rewrite setn_setn in S2; exact S2| |] end.
  - rewrite nth_setn, Nat.eqb_refl, (nth_lt _ _ _ Hc1). reflexivity.
  - cbv beta. intros i j Hi Hj Hok. split; [exact Hok|]. unfold subval. destruct (_ && _) eqn:E; [|reflexivity]. rewrite !andb_true_iff in E. destruct E as (((E1 & E2) & E3) & E4).
    apply Nat.leb_le in E3. apply Nat.ltb_lt in E2, E4. specialize (HG1 (j - coff) (i - 0) ltac:(lia) ltac:(lia)).
    rewrite <- (rl_conj_conj K RL (g' (i - 0) (boff + (j - coff)))), HG1, (sum_conj RL). apply sum_ext. intros p _. rewrite (rl_conj_mul K RL), (rl_conj_conj K RL). ring.
Qed.
End P.
