(** * Truncation of low-rank matrices: programs *)
From Coq Require Import Arith Lia List Bool Permutation Ring.
From Verif Require Import Fld Ord Prog Arr View Loop Line Spec Cluster Block Avector Amatrix AvectorP AmatrixP AmatrixP2 Rkmatrix RkSpec RkP Factor FactorSpec FactorP FactorP2 FactorP3 LrP
  Chol CholSpec CholP5 Qr QrSpec QrP QrP2 QrP3 QrP4 QrP7 QrP8 QrP10 CbmSpec CbmP CopSpec OrthoP OrthoP3 SepP SepP2 SepP3 Htrunc HtSpec HtP.
Import ListNotations.

Section P.
Context {K : fops} (L : field_laws K) (O : qops K) (H : qlaws O) (HZ : exact_zero O).
Context (orth : Prop) (good : nat -> (nat -> K) -> Prop) (chosen : nat -> (nat -> K) -> nat -> Prop) (dom : nat -> nat -> Prop).
Context (svd : mat -> vec -> mat -> mat -> prog K unit) (rank : vec -> prog K nat) (Hsvd : svd_ok orth good dom svd) (Hrank : rank_ok good chosen rank).
Notation RL := (fl_ring K L).
Add Ring KringHt2 : (rl_ring K (fl_ring K L)).
Implicit Types (m : mem K) (D : nat -> Prop) (bs : list nat) (l : list (ent (K := K))) (f g F FA FB U V C : nat -> nat -> K) (s t : nat -> K).
Notation up F := (tripart false false F).
Notation svdspec := (svdspec orth good).
Notation truncated := (truncated orth good chosen).
Notation evec sigma s := (full (vm sigma) (fun i _ => s i)).

Lemma st_perm m0 bs D l l' m : Permutation l l' -> st m0 bs D l m -> st m0 bs D l' m.
Proof.
  intros HP [A1 A2 A3 A4]. constructor; [eapply lm_perm; [apply Permutation_map, HP|exact A1]| |exact A3|].
  - intros e He. apply A2, (Permutation_in _ (Permutation_sym HP) He).
  - intros e He. apply A4, (Permutation_in _ (Permutation_sym HP) He).
Qed.
Lemma s_unsub A roff rows coff cols m (Q : unit -> mem K -> Prop) : Q tt m -> wp TT TT (uninit_amatrix (subm A roff rows coff cols)) m Q.
Proof. intros HQ. exact HQ. Qed.
Lemma st_vval n m0 bs D l m sigma s : st m0 bs D l m -> nth_error l n = Some (evec sigma s) -> vval m sigma s.
Proof. intros HS Hn. apply vval_vm. eapply st_mval; eassumption. Qed.

Lemma s_svd_ab na nb m0 bs D l m a f b g (Q : mat * mat * mat * vec -> mem K -> Prop) : st m0 bs D l m -> nth_error l na = Some (full a f) -> nth_error l nb = Some (full b g) ->
  mcols a = mcols b -> dom (mrows a) (mrows b) ->
  (forall c u vt sigma U s V m', let k := Nat.min (mrows a) (mrows b) in
     svdspec (mrows a) (mrows b) (lowrank (mcols a) f g) U s V -> mrows u = mrows a -> mcols u = k -> mrows vt = k -> mcols vt = mrows b -> vdim sigma = k ->
     st m0 bs D (evec sigma s :: full vt V :: full u U :: unk c :: l) m' -> Q (c, u, vt, sigma) m') ->
  wp TT TT (svd_ab svd a b) m Q.
Proof.
  intros HS Ha Hb Ec Hd HQ. unfold svd_ab. apply wp_bind. eapply s_init; [exact HS|]. intros c m1 Er Ek S1.
  apply wp_bind. eapply (s_clear 0); [exact S1|reflexivity|]. cbn [setn]. intros m2 S2.
  apply wp_bind. eapply (s_addmul L 0) with (f := f) (g := g) (h := fun _ _ => f0); [exact S2|reflexivity|eapply (st_mval _ _ _ _ _ (S na)); [exact S2|exact Ha]|eapply (st_mval _ _ _ _ _ (S nb)); [exact S2|exact Hb]| | | | | |].
  { exact (st_neq _ _ _ _ _ (S na) 0 _ _ S2 Ha eq_refl ltac:(lia)). }
  { exact (st_neq _ _ _ _ _ (S nb) 0 _ _ S2 Hb eq_refl ltac:(lia)). }
  { symmetry; exact Er. } { symmetry; exact Ek. } { exact Ec. }
  cbn [setn]. intros m3 S3. apply wp_bind.
  eapply (s_svd_of orth good dom svd Hsvd 0) with (c := c) (C := c); [exact S3|reflexivity|auto|reflexivity|apply (st_own _ _ _ _ _ 0 _ _ _ S3 eq_refl)|eapply (st_mval _ _ _ _ _ 0); [exact S3|reflexivity]|rewrite Er, Ek; exact Hd|].
  cbn [setn]. rewrite Er, Ek. intros u vt sigma U s V m4 HV E1 E2 E3 E4 E5 S4. cbn [wp fst snd]. eapply (HQ _ _ _ _ U s V); try eassumption.
  eapply svdspec_ext; [|exact HV]. intros i j _ _. cbv beta. unfold lowrank. cbn [tr]. ring.
Qed.

Lemma s_rank n m0 bs D l m sigma s (Q : nat -> mem K -> Prop) : st m0 bs D l m -> nth_error l n = Some (evec sigma s) -> good (vdim sigma) s ->
  (forall k, k <= vdim sigma -> chosen (vdim sigma) s k -> Q k m) -> wp TT TT (rank sigma) m Q.
Proof.
  intros HS Hn Hg HQ. eapply wp_conseq; [apply ends_wp, Hrank; [eapply st_vval; eassumption|exact Hg]|]. cbv beta. intros k m' (-> & Hk & Hc). apply HQ; assumption.
Qed.

(** [A <- U Sigma], [B <- V] *)
Lemma s_fin_ab m0 bs D l m u U vt V sigma s r E1 E2 c (Q : unit -> mem K -> Prop) : 
  st m0 bs D (evec sigma s :: full vt V :: full u U :: c :: unk (rk_A r) :: unk (rk_B r) :: l) m ->
  mrows (rk_A r) = mrows u -> mrows (rk_B r) = mcols vt -> mcols (rk_A r) = E1 -> mcols (rk_B r) = E1 -> E1 <= E2 -> mcols u = E2 -> mrows vt = E2 -> vdim sigma = E2 -> (forall i, i < E2 -> fconj (s i) = s i) ->
  (forall A B m', (forall i j, i < mrows u -> j < E1 -> A i j = (U i j * s j)%F) -> (forall i j, i < mcols vt -> j < E1 -> B i j = fconj (V j i)) ->
     st m0 bs D (evec sigma s :: full vt V :: full u U :: c :: full (rk_A r) A :: full (rk_B r) B :: l) m' -> Q tt m') ->
  wp TT TT (fin_ab u vt sigma r) m Q.
Proof.
  intros HS R1 R2 C1 C2 Le Cu Rv Ds Hs HQ. unfold fin_ab.
  apply wp_bind. eapply (s_copysub 4 false); [exact HS|reflexivity|eapply (st_mval _ _ _ _ _ 2); [exact HS|reflexivity]| |lia|lia|].
  { exact (st_neq _ _ _ _ _ 2 4 _ _ HS eq_refl eq_refl ltac:(lia)). }
  cbn [setn tr]. intros m1 S1.
  apply wp_bind. eapply (s_copysub 5 true); [exact S1|reflexivity|eapply (st_mval _ _ _ _ _ 1); [exact S1|reflexivity]| |lia|lia|].
  { exact (st_neq _ _ _ _ _ 1 5 _ _ S1 eq_refl eq_refl ltac:(lia)). }
  cbn [setn]. intros m2 S2.
  eapply (s_diag L 4) with (s := s); [exact S2|reflexivity|eapply (st_vval 0); [exact S2|reflexivity]| |intros i Hi; apply Hs; lia|cbn; lia|].
  { exact (st_neq _ _ _ _ _ 0 4 _ _ S2 eq_refl eq_refl ltac:(lia)). }
  cbn [setn]. intros A m3 HA S3. eapply HQ; [| |exact S3].
  - intros i j Hi Hj. assert (HE : fconj (A i j) = (f1 * s j * fconj (U i j))%F) by (apply (HA j i); lia). rewrite <- (rl_conj_conj K RL (A i j)), HE, !(rl_conj_mul K RL), (rl_conj_conj K RL), Hs by lia.
    rewrite (fconj_1 RL). ring.
  - intros i j _ _. reflexivity.
Qed.

(** ** QR decomposition of one factor *)
Lemma s_svd_q nq nb m0 bs D l m q f b g (Q : vec * mat * mat * vec -> mem K -> Prop) : st m0 bs D l m -> nth_error l nq = Some (full q f) -> nth_error l nb = Some (full b g) -> nq <> nb ->
  mcols b = mcols q -> mcols q <= mrows q -> dom (mrows b) (mcols q) ->
  (forall tau u vt sigma F t C U s V m', let k := Nat.min (mrows b) (mcols q) in qrfac O (mrows q) (mcols q) f F t -> 
     (forall i r, i < mrows b -> r < mcols q -> C i r = sum (mcols q) (fun p => g i p * fconj (up F r p))%F) ->
     svdspec (mrows b) (mcols q) C U s V -> vdim tau = mcols q -> mrows u = mrows b -> mcols u = k -> mrows vt = k -> mcols vt = mcols q -> vdim sigma = k ->
     st m0 bs D (evec sigma s :: full vt V :: full u U :: evec tau t :: setn nb (unk b) (setn nq (full q F) l)) m' -> Q (tau, u, vt, sigma) m') ->
  wp TT TT (svd_q O svd q b) m Q.
Proof.
  intros HS Hq Hb Hne Ec Hc Hd HQ. unfold svd_q. apply wp_bind. eapply s_initv; [exact HS|]. intros tau m1 Et S1.
  apply wp_bind. eapply (s_qr L O H (S nq) 0) with (A := q) (tau := tau); [exact S1|exact Hq|reflexivity|lia|lia|]. intros F t m2 HF S2. cbn [setn] in S2.
  assert (Hq2 : nth_error (setn nq (full q F) l) nq = Some (full q F)) by (rewrite nth_setn, Nat.eqb_refl, (nth_lt _ _ _ Hq); reflexivity).
  assert (Hb2 : nth_error (setn nq (full q F) l) nb = Some (full b g)). { rewrite nth_setn. destruct (Nat.eqb_spec nb nq); [congruence|]. exact Hb. }
  rewrite Nat.min_r by exact Hc.
  apply wp_bind, wp_init_sub_amatrix; [lia|lia|].
  assert (HN : mblk q <> mblk b) by exact (st_neq _ _ _ _ _ (S nq) (S nb) _ _ S2 Hq2 Hb2 ltac:(lia)).
  apply wp_bind. eapply (s_trieval L (S nb)) with (X := b) (g := g) (f := F); [exact S2|exact Hb2| |exact HN|cbn; lia|cbn; lia|].
  { apply (mval_subm m2 q F 0 (mcols q) 0 (mcols q)); [eapply (st_mval _ _ _ _ _ (S nq)); [exact S2|exact Hq2]|lia|lia]. }
  cbn [subm mrows mcols setn]. intros g' m3 HG _ S3. apply wp_bind, s_unsub.
  assert (Hb3 : nth_error (setn nb (full b g') (setn nq (full q F) l)) nb = Some (full b g')) by (rewrite nth_setn, Nat.eqb_refl, (nth_lt _ _ _ Hb2); reflexivity).
  apply wp_bind, wp_init_sub_amatrix; [lia|lia|]. apply wp_bind.
  eapply (s_svd_of orth good dom svd Hsvd (S nb)) with (C := b) (f := fun i j => g' (0 + i) (0 + j)); [exact S3|exact Hb3| |reflexivity| | |cbn; exact Hd|].
  { intros a. apply inm_subm; lia. }
  { apply mwf_subm; [apply (st_own _ _ _ _ _ (S nb) _ _ _ S3 Hb3)|lia]. }
  { apply mval_subm; [eapply (st_mval _ _ _ _ _ (S nb)); [exact S3|exact Hb3]|lia|lia]. }
  cbn [subm mrows mcols setn]. intros u vt sigma U s V m4 HV E1 E2 E3 E4 E5 S4. cbn [wp fst snd]. rewrite setn_setn in S4.
  eapply (HQ tau u vt sigma F t g' U s V); try eassumption.
  intros i r Hi Hr. specialize (HG r i Hr Hi). rewrite <- (rl_conj_conj K RL (g' i r)), HG, (sum_conj RL). apply sum_ext. intros p _. rewrite (rl_conj_mul K RL), (rl_conj_conj K RL). ring.
Qed.

(** [x <- U Sigma], [y <- Q V] *)
Lemma s_fin_q m0 bs D l m q F tau t u U vt V sigma s (x y : mat) n k (Q : unit -> mem K -> Prop) :
  st m0 bs D (evec sigma s :: full vt V :: full u U :: evec tau t :: full q F :: unk x :: unk y :: l) m ->
  mrows x = mrows u -> mrows y = mrows q -> mcols x = k -> mcols y = k -> k <= n -> mcols u = n -> mrows vt = n -> mcols vt = mcols q -> mcols q <= mrows q -> vdim sigma = n -> vdim tau = mcols q ->
  (forall i, i < n -> fconj (s i) = s i) ->
  (forall A B m', (forall i j, i < mrows u -> j < k -> A i j = (U i j * s j)%F) -> (forall i j, i < mrows q -> j < k -> B i j = qpart (mrows q) F t (mcols q) (tr true V) i j) ->
     st m0 bs D (evec sigma s :: full vt V :: full u U :: full q F :: full x A :: full y B :: l) m' -> Q tt m') ->
  wp TT TT (fin_q q tau u vt sigma x y) m Q.
Proof.
  intros HS R1 R2 C1 C2 Le Cu Rv Cv Cq Ds Dt Hs HQ. unfold fin_q.
  apply wp_bind. eapply (s_copysub 5 false); [exact HS|reflexivity|eapply (st_mval _ _ _ _ _ 2); [exact HS|reflexivity]| |lia|lia|].
  { exact (st_neq _ _ _ _ _ 2 5 _ _ HS eq_refl eq_refl ltac:(lia)). }
  cbn [setn tr]. intros m1 S1. apply wp_bind. eapply (s_clear 6); [exact S1|reflexivity|]. cbn [setn]. intros m2 S2.
  apply wp_bind. eapply (s_copysub_on 6 true) with (f := V); [exact S2|reflexivity|eapply (st_mval _ _ _ _ _ 1); [exact S2|reflexivity]| |].
  { exact (st_neq _ _ _ _ _ 1 6 _ _ S2 eq_refl eq_refl ltac:(lia)). }
  cbn [setn]. intros m3 S3.
  apply wp_bind. eapply (s_qreval L 6) with (F := F) (t := t); [exact S3|reflexivity|eapply (st_mval _ _ _ _ _ 4); [exact S3|reflexivity]|eapply (st_vval 3); [exact S3|reflexivity]| | |lia|exact R2|].
  { exact (st_neq _ _ _ _ _ 4 6 _ _ S3 eq_refl eq_refl ltac:(lia)). }
  { exact (st_neq _ _ _ _ _ 3 6 _ _ S3 eq_refl eq_refl ltac:(lia)). }
  cbn [setn]. intros m4 S4. apply wp_bind. eapply (s_uninitv 3); [exact S4|reflexivity|]. cbn [deln]. intros m5 S5.
  eapply (s_diag L 4) with (s := s); [exact S5|reflexivity|eapply (st_vval 0); [exact S5|reflexivity]| |intros i Hi; apply Hs; lia|cbn; lia|].
  { exact (st_neq _ _ _ _ _ 0 4 _ _ S5 eq_refl eq_refl ltac:(lia)). }
  cbn [setn]. intros A m6 HA S6. eapply HQ; [| |exact S6].
  - intros i j Hi Hj. assert (HE : fconj (A i j) = (f1 * s j * fconj (U i j))%F) by (apply (HA j i); lia). rewrite <- (rl_conj_conj K RL (A i j)), HE, !(rl_conj_mul K RL), (rl_conj_conj K RL), Hs by lia.
    rewrite (fconj_1 RL). ring.
  - intros i j Hi Hj. rewrite Nat.min_r by exact Cq. apply (qpart_mmul L); [exact Cq| |].
    + intros r Hr. cbv beta. bsplit; try lia. reflexivity.
    + intros r Hr Hr2. cbv beta. bsplit; try lia; reflexivity.
Qed.

(** ** QR decompositions of both factors *)
Lemma s_svd_qq m0 bs D l m a f b g (Q : vec * vec * mat * mat * mat * vec -> mem K -> Prop) : st m0 bs D (full b g :: full a f :: l) m ->
  mcols b = mcols a -> mcols a <= mrows a -> mcols b <= mrows b -> dom (mcols a) (mcols a) ->
  (forall atau btau c u vt sigma FA tA FB tB C U s V m', let k := mcols a in qrfac O (mrows a) k f FA tA -> qrfac O (mrows b) k g FB tB ->
     (forall i r, i < k -> r < k -> C i r = sum k (fun p => up FA i p * fconj (up FB r p))%F) ->
     svdspec k k C U s V -> vdim atau = k -> vdim btau = k -> mrows u = k -> mcols u = k -> mrows vt = k -> mcols vt = k -> vdim sigma = k ->
     st m0 bs D (evec sigma s :: full vt V :: full u U :: unk c :: evec btau tB :: evec atau tA :: full b FB :: full a FA :: l) m' -> Q (atau, btau, c, u, vt, sigma) m') ->
  wp TT TT (svd_qq O svd a b) m Q.
Proof.
  intros HS Ec Ha Hb Hd HQ. unfold svd_qq. apply wp_bind. eapply s_initv; [exact HS|]. intros atau m1 Et1 S1.
  apply wp_bind. eapply (s_qr L O H 2 0) with (A := a) (tau := atau); [exact S1|reflexivity|reflexivity|lia|lia|]. cbn [setn]. intros FA tA m2 HFA S2.
  apply wp_bind. eapply s_initv; [exact S2|]. intros btau m3 Et3 S3.
  apply wp_bind. eapply (s_qr L O H 2 0) with (A := b) (tau := btau); [exact S3|reflexivity|reflexivity|lia|lia|]. cbn [setn]. intros FB tB m4 HFB S4.
  rewrite !Nat.min_l by assumption.
  apply wp_bind. eapply s_init; [exact S4|]. intros c m5 Er Ek S5.
  apply wp_bind. eapply (s_clear 0); [exact S5|reflexivity|]. cbn [setn]. intros m6 S6.
  apply wp_bind, wp_init_sub_amatrix; [lia|lia|]. apply wp_bind, wp_init_sub_amatrix; [lia|lia|].
  apply wp_bind. eapply (s_triaddmul L 0) with (f := FA) (g := FB) (h := fun _ _ => f0); [exact S6|reflexivity| | | | | | | |].
  { apply (mval_subm m6 a FA 0 (mcols a) 0 (mcols a)); [eapply (st_mval _ _ _ _ _ 4); [exact S6|reflexivity]|lia|lia]. }
  { apply (mval_subm m6 b FB 0 (mcols b) 0 (mcols b)); [eapply (st_mval _ _ _ _ _ 3); [exact S6|reflexivity]|lia|lia]. }
  { exact (st_neq _ _ _ _ _ 4 0 _ _ S6 eq_refl eq_refl ltac:(lia)). }
  { exact (st_neq _ _ _ _ _ 3 0 _ _ S6 eq_refl eq_refl ltac:(lia)). }
  { cbn. lia. } { cbn. lia. } { cbn. lia. }
  cbn [subm mrows mcols setn]. intros m7 S7. apply wp_bind, s_unsub. apply wp_bind, s_unsub. apply wp_bind.
  eapply (s_svd_of orth good dom svd Hsvd 0) with (c := c) (C := c); [exact S7|reflexivity|auto|reflexivity|apply (st_own _ _ _ _ _ 0 _ _ _ S7 eq_refl)|eapply (st_mval _ _ _ _ _ 0); [exact S7|reflexivity]|rewrite Er, Ek, Ec; exact Hd|].
  cbn [setn]. rewrite Er, Ek, Ec, Nat.min_id. intros u vt sigma U s V m8 HV E1 E2 E3 E4 E5 S8. cbn [wp fst snd].
  rewrite Ec in HFB. eapply (HQ atau btau c u vt sigma FA tA FB tB _ U s V); [exact HFA|exact HFB| |exact HV|lia|lia|assumption|assumption|assumption|assumption|assumption|exact S8].
  intros i r Hi Hr. cbv beta. ring.
Qed.
Lemma s_fin_qq m0 bs D l m a FA atau tA b FB btau tB c u U vt V sigma s r n k (Q : unit -> mem K -> Prop) :
  st m0 bs D (evec sigma s :: full vt V :: full u U :: unk c :: evec btau tB :: evec atau tA :: full b FB :: full a FA :: unk (rk_A r) :: unk (rk_B r) :: l) m ->
  mrows (rk_A r) = mrows a -> mrows (rk_B r) = mrows b -> mcols (rk_A r) = k -> mcols (rk_B r) = k -> k <= n -> mrows u = n -> mcols u = n -> mrows vt = n -> mcols vt = n ->
  mcols a = n -> mcols b = n -> n <= mrows a -> n <= mrows b -> vdim sigma = n -> vdim atau = n -> vdim btau = n ->
  (forall i, i < n -> fconj (s i) = s i) ->
  (forall A B m', (forall i j, i < mrows a -> j < k -> A i j = qpart (mrows a) FA tA n (fun i j => U i j * s j)%F i j) -> (forall i j, i < mrows b -> j < k -> B i j = qpart (mrows b) FB tB n (tr true V) i j) ->
     (exists U', st m0 bs D (evec sigma s :: full vt V :: full u U' :: unk c :: evec btau tB :: evec atau tA :: full b FB :: full a FA :: full (rk_A r) A :: full (rk_B r) B :: l) m') -> Q tt m') ->
  wp TT TT (fin_qq a atau b btau u vt sigma r) m Q.
Proof.
  intros HS R1 R2 C1 C2 Le Ru Cu Rv Cv Ca Cb La Lb Ds Da Db Hs HQ. unfold fin_qq.
  apply wp_bind. eapply (s_diag L 2) with (s := s); [exact HS|reflexivity|eapply (st_vval 0); [exact HS|reflexivity]| |intros i Hi; apply Hs; lia|cbn; lia|].
  { exact (st_neq _ _ _ _ _ 0 2 _ _ HS eq_refl eq_refl ltac:(lia)). }
  cbn [setn]. intros U' m1 HU S1.
  assert (HU' : forall i j, i < n -> j < n -> U' i j = (U i j * s j)%F).
  { intros i j Hi Hj. assert (HE : fconj (U' i j) = (f1 * s j * fconj (U i j))%F) by (apply (HU j i); lia). rewrite <- (rl_conj_conj K RL (U' i j)), HE, !(rl_conj_mul K RL), (rl_conj_conj K RL), Hs by lia.
    rewrite (fconj_1 RL). ring. }
  clear HU. apply wp_bind. eapply (s_clear 8); [exact S1|reflexivity|]. cbn [setn]. intros m2 S2.
  apply wp_bind. eapply (s_copysub_on 8 false) with (f := U'); [exact S2|reflexivity|eapply (st_mval _ _ _ _ _ 2); [exact S2|reflexivity]| |].
  { exact (st_neq _ _ _ _ _ 2 8 _ _ S2 eq_refl eq_refl ltac:(lia)). }
  cbn [setn]. intros m3 S3. apply wp_bind. eapply (s_clear 9); [exact S3|reflexivity|]. cbn [setn]. intros m4 S4.
  apply wp_bind. eapply (s_copysub_on 9 true) with (f := V); [exact S4|reflexivity|eapply (st_mval _ _ _ _ _ 1); [exact S4|reflexivity]| |].
  { exact (st_neq _ _ _ _ _ 1 9 _ _ S4 eq_refl eq_refl ltac:(lia)). }
  cbn [setn]. intros m5 S5.
  apply wp_bind. eapply (s_qreval L 8) with (F := FA) (t := tA); [exact S5|reflexivity|eapply (st_mval _ _ _ _ _ 7); [exact S5|reflexivity]|eapply (st_vval 5); [exact S5|reflexivity]| | |lia|exact R1|].
  { exact (st_neq _ _ _ _ _ 7 8 _ _ S5 eq_refl eq_refl ltac:(lia)). }
  { exact (st_neq _ _ _ _ _ 5 8 _ _ S5 eq_refl eq_refl ltac:(lia)). }
  cbn [setn]. intros m6 S6.
  eapply (s_qreval L 9) with (F := FB) (t := tB); [exact S6|reflexivity|eapply (st_mval _ _ _ _ _ 6); [exact S6|reflexivity]|eapply (st_vval 4); [exact S6|reflexivity]| | |lia|exact R2|].
  { exact (st_neq _ _ _ _ _ 6 9 _ _ S6 eq_refl eq_refl ltac:(lia)). }
  { exact (st_neq _ _ _ _ _ 4 9 _ _ S6 eq_refl eq_refl ltac:(lia)). }
  cbn [setn]. intros m7 S7. eapply HQ; [| |exists U'; exact S7].
  - intros i j Hi Hj. replace (Nat.min (mrows a) (mcols a)) with n by lia. apply (qpart_mmul L); [exact La| |].
    + intros p Hp. cbv beta. cbn [tr]. bsplit; try lia. apply HU'; lia.
    + intros p Hp Hp2. cbv beta. bsplit; try lia; reflexivity.
  - intros i j Hi Hj. replace (Nat.min (mrows b) (mcols b)) with n by lia. apply (qpart_mmul L); [exact Lb| |].
    + intros p Hp. cbv beta. bsplit; try lia. reflexivity.
    + intros p Hp Hp2. cbv beta. bsplit; try lia; reflexivity.
Qed.
End P.
