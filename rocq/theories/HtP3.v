(** * Truncation and truncated addition of low-rank matrices *)
From Coq Require Import Arith Lia List Bool Permutation Ring.
From Verif Require Import Fld Ord Prog Arr View Loop Line Spec Cluster Block Avector Amatrix AvectorP AmatrixP AmatrixP2 Rkmatrix RkSpec RkP Factor FactorSpec FactorP FactorP2 FactorP3 LrP
  Chol CholSpec CholP5 Qr QrSpec QrP QrP2 QrP3 QrP4 QrP7 QrP8 QrP10 CbmSpec CbmP CopSpec OrthoP OrthoP3 SepP SepP2 SepP3 Htrunc HtSpec HtP HtP2.
Import ListNotations.

Section P.
Context {K : fops} (L : field_laws K) (O : qops K) (H : qlaws O) (HZ : exact_zero O).
Context (orth : Prop) (good : nat -> (nat -> K) -> Prop) (chosen : nat -> (nat -> K) -> nat -> Prop) (dom : nat -> nat -> Prop).
Context (svd : mat -> vec -> mat -> mat -> prog K unit) (rank : vec -> prog K nat) (Hsvd : svd_ok orth good dom svd) (Hrank : rank_ok good chosen rank).
Notation RL := (fl_ring K L).
Add Ring KringHt3 : (rl_ring K (fl_ring K L)).
Implicit Types (m : mem K) (bs : list nat) (l : list (ent (K := K))) (f g F FA FB U V C D : nat -> nat -> K) (s t : nat -> K) (r src trg : rkm).
Notation up F := (tripart false false F).
Notation svdspec := (svdspec orth good).
Notation truncated := (truncated orth good chosen).
Notation evec sigma s := (full (vm sigma) (fun i _ => s i)).

(** The blocks of a low-rank matrix *)
Definition rbs r : list nat := [mblk (rk_A r); mblk (rk_B r)].
Definition rD m r (b : nat) : Prop := b = mblk (rk_A r) \/ b = mblk (rk_B r) \/ next m <= b.
Definition rst m r l m' : Prop := st m (rbs r) (rD m r) l m'.
Lemma rst_start m r f g : rkown m r -> mval m (rk_A r) f -> mval m (rk_B r) g -> rst m r [full (rk_A r) f; full (rk_B r) g] m.
Proof.
  intros (A1 & A2 & A3 & A4 & A5 & A6 & A7 & A8 & A9 & A10 & A11) Hf Hg. apply st_start.
  - split; [|split; [|split]].
    + repeat constructor; assumption.
    + cbn. constructor; [cbn; intros [E|[]]; congruence|]. constructor; [intros []|constructor].
    + intros b Hb. right; right; exact Hb.
    + cbn. intros a [Ha|[Ha|Ha]] Hn; [exfalso; apply Hn; auto|exfalso; apply Hn; auto|apply get_next, Ha].
  - intros e [<-|[<-|[]]]; apply full_mval; assumption.
  - cbn. intros e [<-|[<-|[]]]; cbn; auto.
Qed.

(** What the functions deliver *)
Definition trunc_post km m r D r' m' : Prop :=
  exists D', rkrep m' r' D' /\ rk_k r' <= km /\ mrows (rk_A r') = mrows (rk_A r) /\ mrows (rk_B r') = mrows (rk_B r) /\
    truncated (mrows (rk_A r)) (mrows (rk_B r)) D D' (rk_k r') /\ replaced m r m' r'.
Lemma rst_end km m r r' f g m' D : rst m r [full (rk_A r') f; full (rk_B r') g] m' ->
  mcols (rk_A r') = rk_k r' -> mcols (rk_B r') = rk_k r' -> mrows (rk_A r') = mrows (rk_A r) -> mrows (rk_B r') = mrows (rk_B r) ->
  truncated (mrows (rk_A r)) (mrows (rk_B r)) D (lowrank (rk_k r') f g) (rk_k r') -> rk_k r' <= km -> trunc_post km m r D r' m'.
Proof.
  intros HS C1 C2 R1 R2 HT Hkm. exists (lowrank (rk_k r') f g).
  pose proof (st_own _ _ _ _ _ 0 _ _ _ HS eq_refl) as (A1 & A2 & A3 & A4). pose proof (st_own _ _ _ _ _ 1 _ _ _ HS eq_refl) as (B1 & B2 & B3 & B4).
  pose proof (st_neq _ _ _ _ _ 0 1 _ _ HS eq_refl eq_refl ltac:(lia)) as HN. cbn in HN.
  split; [|split; [exact Hkm|split; [exact R1|split; [exact R2|split; [exact HT|]]]]].
  - exists f, g. split; [eapply (st_mval _ _ _ _ _ 0); [exact HS|reflexivity]|]. split; [eapply (st_mval _ _ _ _ _ 1); [exact HS|reflexivity]|]. auto.
  - split; [repeat split; assumption|]. destruct HS as [(_ & _ & _ & HF) _ HK HO]. split; [|split].
    + assert (HB : forall b, In b (rbs r) \/ next m <= b -> (b = mblk (rk_A r) \/ b = mblk (rk_B r)) \/ next m <= b) by (cbn; intros b [[E|[E|[]]]|E]; auto).
      intros a [E|E]; rewrite E; unfold rkblk; rewrite E; apply HB; [apply (HO _ (or_introl eq_refl))|apply (HO _ (or_intror (or_introl eq_refl)))].
    + intros a Ha Hno. apply (proj2 HK). cbn. intros [[E|[E|[]]]|E]; [apply Hno; left; auto|apply Hno; right; auto|lia].
    + intros a Ha Hno. apply HF; [unfold rD, rkblk in *; tauto|]. cbn. intros [E|[E|[]]]; apply Hno; [left|right]; auto.
Qed.

(** ** Truncation *)
Lemma wp_trunc_ab r m f g (Q : rkm -> mem K -> Prop) : rkown m r -> mval m (rk_A r) f -> mval m (rk_B r) g -> mrows (rk_A r) <= rk_k r -> dom (mrows (rk_A r)) (mrows (rk_B r)) ->
  (forall r' m', trunc_post (rk_k r) m r (lowrank (rk_k r) f g) r' m' -> Q r' m') -> wp TT TT (trunc_ab_rkmatrix svd rank r) m Q.
Proof.
  intros HO Hf Hg Hle Hd HQ. pose proof (rst_start _ _ _ _ HO Hf Hg) as S0. destruct HO as (_ & _ & _ & _ & _ & _ & _ & Ca & Cb & _). unfold trunc_ab_rkmatrix.
  apply wp_bind, wp_assert; [apply Nat.eqb_eq, Ca|]. apply wp_bind, wp_assert; [apply Nat.eqb_eq, Cb|].
  apply wp_bind. eapply (s_svd_ab L orth good dom svd Hsvd 0 1); [exact S0|reflexivity|reflexivity|lia|exact Hd|]. cbv zeta. intros c u vt sigma U s V m1 HV E1 E2 E3 E4 E5 S1.
  destruct HV as (V1 & V2 & V3 & V4).
  apply wp_bind. eapply (s_rank good chosen rank Hrank 0); [exact S1|reflexivity|rewrite E5; exact V3|]. intros k Hk HC. rewrite E5 in Hk, HC.
  apply wp_bind. eapply (s_setrank 4 5); [exact S1|reflexivity|reflexivity|lia|]. cbn [setn]. intros r' m2 R1 R2 C1 C2 Rk S2.
  apply wp_bind. eapply (s_fin_ab L); [exact S2|lia|lia|exact C1|exact C2|exact Hk|exact E2|exact E3|exact E5|exact V2|]. intros A B m3 HA HB S3.
  apply wp_bind. eapply (s_uninitv 0); [exact S3|reflexivity|]. cbn [deln]. intros m4 S4.
  apply wp_bind. eapply (s_uninit 0); [exact S4|reflexivity|]. cbn [deln]. intros m5 S5.
  apply wp_bind. eapply (s_uninit 0); [exact S5|reflexivity|]. cbn [deln]. intros m6 S6.
  apply wp_bind. eapply (s_uninit 0); [exact S6|reflexivity|]. cbn [deln]. intros m7 S7. cbn [wp]. apply HQ.
  eapply rst_end; [exact S7|lia|lia|exact R1|exact R2| |lia]. rewrite Rk.
  eapply truncated_ext; [intros i j _ _; reflexivity| |eapply (math_ab L)]; [|rewrite <- Ca; split; eauto|exact Hk|exact HC].
  intros i j Hi Hj. cbv beta. eapply lowrank_ext; [| |exact Hi|exact Hj].
  - intros i' q Hi' Hq. apply HA; lia.
  - intros i' q Hi' Hq. apply HB; lia.
Qed.

Lemma wp_trunc_qb r m f g (Q : rkm -> mem K -> Prop) : rkown m r -> mval m (rk_A r) f -> mval m (rk_B r) g -> rk_k r <= mrows (rk_A r) -> dom (mrows (rk_B r)) (rk_k r) ->
  (forall r' m', trunc_post (rk_k r) m r (lowrank (rk_k r) f g) r' m' -> Q r' m') -> wp TT TT (trunc_qb_rkmatrix O svd rank r) m Q.
Proof.
  intros HO Hf Hg Hle Hd HQ. pose proof (rst_start _ _ _ _ HO Hf Hg) as S0. destruct HO as (_ & _ & _ & _ & _ & _ & _ & Ca & Cb & _). unfold trunc_qb_rkmatrix.
  apply wp_bind, wp_assert; [apply Nat.eqb_eq, Ca|]. apply wp_bind, wp_assert; [apply Nat.eqb_eq, Cb|].
  apply (st_perm _ _ _ _ _ _ (perm_swap _ _ _)) in S0.
  apply wp_bind. eapply s_init; [exact S0|]. intros a m1 Ra Ka S1.
  apply wp_bind. eapply (s_copy 0 false) with (f := f); [exact S1|reflexivity|eapply (st_mval _ _ _ _ _ 2); [exact S1|reflexivity]| |lia|lia|].
  { exact (st_neq _ _ _ _ _ 2 0 _ _ S1 eq_refl eq_refl ltac:(lia)). }
  cbn [setn tr]. intros m2 S2.
  apply wp_bind. eapply (s_svd_q L O H orth good dom svd Hsvd 0 1); [exact S2|reflexivity|reflexivity|lia|lia|lia|rewrite Ka; exact Hd|]. cbv zeta. rewrite Ka, Ra. cbn [setn].
  intros tau u vt sigma F t C U s V m3 HF HC HV Dt E1 E2 E3 E4 E5 S3.
  apply wp_bind. eapply (s_rank good chosen rank Hrank 0); [exact S3|reflexivity|rewrite E5; apply HV|]. intros k Hk HCh. rewrite E5 in Hk, HCh.
  apply wp_bind. eapply (s_setrank 6 5); [exact S3|reflexivity|reflexivity|lia|]. cbn [setn]. intros r' m4 R1 R2 C1 C2 Rk S4.
  apply wp_bind. eapply (s_fin_q L) with (k := k); [exact S4|lia|lia|lia|lia|exact Hk|exact E2|exact E3|lia|lia|exact E5|lia|apply HV|]. intros B A m5 HB HA S5.
  apply wp_bind. eapply (s_uninitv 0); [exact S5|reflexivity|]. cbn [deln]. intros m6 S6.
  apply wp_bind. eapply (s_uninit 0); [exact S6|reflexivity|]. cbn [deln]. intros m7 S7.
  apply wp_bind. eapply (s_uninit 0); [exact S7|reflexivity|]. cbn [deln]. intros m8 S8.
  apply wp_bind. eapply (s_uninit 0); [exact S8|reflexivity|]. cbn [deln]. intros m9 S9. cbn [wp]. apply HQ.
  apply (st_perm _ _ _ _ _ _ (perm_swap _ _ _)) in S9.
  eapply rst_end; [exact S9|lia|lia|exact R1|exact R2| |lia]. rewrite Rk.
  eapply truncated_ext; [| |apply (truncated_sym L); eapply (math_q L O HZ); [exact HF|exact Hle|exact HC|exact HV|exact Hk|exact HCh]].
  - intros i j _ _. cbv beta. rewrite (lowrank_conj L). reflexivity.
  - intros i j Hi Hj. cbv beta. rewrite (lowrank_conj L). eapply lowrank_ext; [| |exact Hi|exact Hj].
    + intros i' q Hi' Hq. rewrite Ra, Ka in HA. apply HA; lia.
    + intros i' q Hi' Hq. apply HB; lia.
Qed.
Lemma wp_trunc_aq r m f g (Q : rkm -> mem K -> Prop) : rkown m r -> mval m (rk_A r) f -> mval m (rk_B r) g -> rk_k r <= mrows (rk_B r) -> dom (mrows (rk_A r)) (rk_k r) ->
  (forall r' m', trunc_post (rk_k r) m r (lowrank (rk_k r) f g) r' m' -> Q r' m') -> wp TT TT (trunc_aq_rkmatrix O svd rank r) m Q.
Proof.
  intros HO Hf Hg Hle Hd HQ. pose proof (rst_start _ _ _ _ HO Hf Hg) as S0. destruct HO as (_ & _ & _ & _ & _ & _ & _ & Ca & Cb & _). unfold trunc_aq_rkmatrix.
  apply wp_bind, wp_assert; [apply Nat.eqb_eq, Ca|]. apply wp_bind, wp_assert; [apply Nat.eqb_eq, Cb|].
  apply wp_bind. eapply s_init; [exact S0|]. intros b m1 Ra Ka S1.
  apply wp_bind. eapply (s_copy 0 false) with (f := g); [exact S1|reflexivity|eapply (st_mval _ _ _ _ _ 2); [exact S1|reflexivity]| |lia|lia|].
  { exact (st_neq _ _ _ _ _ 2 0 _ _ S1 eq_refl eq_refl ltac:(lia)). }
  cbn [setn tr]. intros m2 S2.
  apply wp_bind. eapply (s_svd_q L O H orth good dom svd Hsvd 0 1); [exact S2|reflexivity|reflexivity|lia|lia|lia|rewrite Ka; exact Hd|]. cbv zeta. rewrite Ka, Ra. cbn [setn].
  intros tau u vt sigma F t C U s V m3 HF HC HV Dt E1 E2 E3 E4 E5 S3.
  apply wp_bind. eapply (s_rank good chosen rank Hrank 0); [exact S3|reflexivity|rewrite E5; apply HV|]. intros k Hk HCh. rewrite E5 in Hk, HCh.
  apply wp_bind. eapply (s_setrank 5 6); [exact S3|reflexivity|reflexivity|lia|]. cbn [setn]. intros r' m4 R1 R2 C1 C2 Rk S4.
  apply wp_bind. eapply (s_fin_q L) with (k := k); [exact S4|lia|lia|lia|lia|exact Hk|exact E2|exact E3|lia|lia|exact E5|lia|apply HV|]. intros A B m5 HA HB S5.
  apply wp_bind. eapply (s_uninitv 0); [exact S5|reflexivity|]. cbn [deln]. intros m6 S6.
  apply wp_bind. eapply (s_uninit 0); [exact S6|reflexivity|]. cbn [deln]. intros m7 S7.
  apply wp_bind. eapply (s_uninit 0); [exact S7|reflexivity|]. cbn [deln]. intros m8 S8.
  apply wp_bind. eapply (s_uninit 0); [exact S8|reflexivity|]. cbn [deln]. intros m9 S9. cbn [wp]. apply HQ.
  eapply rst_end; [exact S9|lia|lia|exact R1|exact R2| |lia]. rewrite Rk.
  eapply truncated_ext; [intros i j _ _; reflexivity| |eapply (math_q L O HZ); [exact HF|exact Hle|exact HC|exact HV|exact Hk|exact HCh]].
  intros i j Hi Hj. cbv beta. eapply lowrank_ext; [| |exact Hi|exact Hj].
  - intros i' q Hi' Hq. apply HA; lia.
  - intros i' q Hi' Hq. rewrite Ra, Ka in HB. apply HB; lia.
Qed.
Lemma wp_trunc_qq r m f g (Q : rkm -> mem K -> Prop) : rkown m r -> mval m (rk_A r) f -> mval m (rk_B r) g -> rk_k r <= mrows (rk_A r) -> rk_k r <= mrows (rk_B r) -> dom (rk_k r) (rk_k r) ->
  (forall r' m', trunc_post (rk_k r) m r (lowrank (rk_k r) f g) r' m' -> Q r' m') -> wp TT TT (trunc_qq_rkmatrix O svd rank r) m Q.
Proof.
  intros HO Hf Hg Hle Hle2 Hd HQ. pose proof (rst_start _ _ _ _ HO Hf Hg) as S0. destruct HO as (_ & _ & _ & _ & _ & _ & _ & Ca & Cb & _). unfold trunc_qq_rkmatrix.
  apply wp_bind, wp_assert; [apply Nat.eqb_eq, Ca|]. apply wp_bind, wp_assert; [apply Nat.eqb_eq, Cb|].
  apply wp_bind. eapply s_init; [exact S0|]. intros a m1 Ra Ka S1.
  apply wp_bind. eapply (s_copy 0 false) with (f := f); [exact S1|reflexivity|eapply (st_mval _ _ _ _ _ 1); [exact S1|reflexivity]| |lia|lia|].
  { exact (st_neq _ _ _ _ _ 1 0 _ _ S1 eq_refl eq_refl ltac:(lia)). }
  cbn [setn tr]. intros m2 S2.
  apply wp_bind. eapply s_init; [exact S2|]. intros b m3 Rb Kb S3.
  apply wp_bind. eapply (s_copy 0 false) with (f := g); [exact S3|reflexivity|eapply (st_mval _ _ _ _ _ 3); [exact S3|reflexivity]| |lia|lia|].
  { exact (st_neq _ _ _ _ _ 3 0 _ _ S3 eq_refl eq_refl ltac:(lia)). }
  cbn [setn tr]. intros m4 S4.
  apply wp_bind. eapply (s_svd_qq L O H orth good dom svd Hsvd); [exact S4|lia|lia|lia|rewrite Ka; exact Hd|]. cbv zeta. rewrite Ka, Ra, Rb.
  intros atau btau c u vt sigma FA tA FB tB C U s V m5 HFA HFB HC HV Da Db E1 E2 E3 E4 E5 S5.
  pose proof HV as (V1 & V2 & V3 & V4). rewrite Nat.min_id in V2, V3.
  apply wp_bind. eapply (s_rank good chosen rank Hrank 0); [exact S5|reflexivity|rewrite E5; exact V3|]. intros k Hk HCh. rewrite E5 in Hk, HCh.
  apply wp_bind. eapply (s_setrank 8 9); [exact S5|reflexivity|reflexivity|lia|]. cbn [setn]. intros r' m6 R1 R2 C1 C2 Rk S6.
  apply wp_bind. eapply (s_fin_qq L) with (k := k) (n := rk_k r); [exact S6|lia|lia|lia|lia|exact Hk|assumption|assumption|assumption|assumption|lia|lia|lia|lia|lia|lia|lia|exact V2|]. intros A B m7 HA HB (U' & S7).
  apply wp_bind. eapply (s_uninitv 0); [exact S7|reflexivity|]. cbn [deln]. intros m8 S8.
  apply wp_bind. eapply (s_uninit 0); [exact S8|reflexivity|]. cbn [deln]. intros m9 S9.
  apply wp_bind. eapply (s_uninit 0); [exact S9|reflexivity|]. cbn [deln]. intros m10 S10.
  apply wp_bind. eapply (s_uninit 0); [exact S10|reflexivity|]. cbn [deln]. intros m11 S11.
  apply wp_bind. eapply (s_uninitv 0); [exact S11|reflexivity|]. cbn [deln]. intros m12 S12.
  apply wp_bind. eapply (s_uninitv 0); [exact S12|reflexivity|]. cbn [deln]. intros m13 S13.
  apply wp_bind. eapply (s_uninit 0); [exact S13|reflexivity|]. cbn [deln]. intros m14 S14.
  apply wp_bind. eapply (s_uninit 0); [exact S14|reflexivity|]. cbn [deln]. intros m15 S15. cbn [wp]. apply HQ.
  eapply rst_end; [exact S15|lia|lia|exact R1|exact R2| |lia]. rewrite Rk.
  eapply truncated_ext; [intros i j _ _; reflexivity| |eapply (math_qq L O HZ); [exact HFA|exact HFB|exact Hle|exact Hle2|exact HC|exact HV|exact Hk|exact HCh]].
  intros i j Hi Hj. cbv beta. eapply lowrank_ext; [| |exact Hi|exact Hj].
  - intros i' q Hi' Hq. rewrite Ra in HA. apply HA; lia.
  - intros i' q Hi' Hq. rewrite Rb in HB. apply HB; lia.
Qed.

Lemma trunc_post_ext km m r D E r' m' : (forall i j, i < mrows (rk_A r) -> j < mrows (rk_B r) -> E i j = D i j) -> trunc_post km m r D r' m' -> trunc_post km m r E r' m'.
Proof.
  intros HE (D' & H0 & H1 & H2 & H3 & H4 & H5). exists D'. repeat (split; [assumption|]). split; [|exact H5].
  eapply truncated_ext; [exact HE| |exact H4]. reflexivity.
Qed.
Lemma wp_trunc r m D (Q : rkm -> mem K -> Prop) : rkown m r -> rkrep m r D -> rk_k r <> 0 ->
  (let a := Nat.min (mrows (rk_A r)) (rk_k r) in let b := Nat.min (mrows (rk_B r)) (rk_k r) in dom a b /\ dom b a) ->
  (forall r' m', trunc_post (rk_k r) m r D r' m' -> Q r' m') -> wp TT TT (trunc_rkmatrix O svd rank r) m Q.
Proof.
  intros HO (f & g & Hf & Hg & Ca & Cb & HD) Hk [Hd1 Hd2] HQ. unfold trunc_rkmatrix.
  apply wp_bind, wp_assert; [apply Nat.eqb_eq, Ca|]. apply wp_bind, wp_assert; [apply Nat.eqb_eq, Cb|].
  destruct (Nat.eqb_spec (rk_k r) 0) as [|_]; [contradiction|].
  assert (HQ' : forall r' m', trunc_post (rk_k r) m r (lowrank (rk_k r) f g) r' m' -> Q r' m') by (intros r' m' HP; apply HQ; eapply trunc_post_ext; [exact HD|exact HP]).
  destruct (Nat.ltb_spec (rk_k r) (mrows (rk_A r))); destruct (Nat.ltb_spec (rk_k r) (mrows (rk_B r))).
  - rewrite !Nat.min_r in Hd1 by lia. eapply wp_trunc_qq; try eassumption; lia.
  - rewrite (Nat.min_l (mrows (rk_B r))), (Nat.min_r (mrows (rk_A r))) in Hd2 by lia. eapply wp_trunc_qb; try eassumption; lia.
  - rewrite (Nat.min_r (mrows (rk_B r))), (Nat.min_l (mrows (rk_A r))) in Hd1 by lia. eapply wp_trunc_aq; try eassumption; lia.
  - rewrite !Nat.min_l in Hd1 by lia. eapply wp_trunc_ab; eassumption.
Qed.

(** ** Addition *)
(** [(alpha X, Y)] *)
Definition stacked (alpha : K) kx (fx fy : nat -> nat -> K) (i j : nat) : K := if j <? kx then (fx i j * alpha)%F else fy i (j - kx).
Lemma s_stack n ny m0 bs (Dm : nat -> Prop) l m alpha kx x fx ky y fy a (Q : unit -> mem K -> Prop) : st m0 bs Dm l m -> nth_error l n = Some (unk a) -> nth_error l ny = Some (full y fy) -> n <> ny ->
  mval m0 x fx -> mblk x < next m0 -> ~ In (mblk x) bs -> mrows x = mrows a -> mcols x = kx -> mrows y = mrows a -> mcols y = ky -> mcols a = kx + ky ->
  (forall m', st m0 bs Dm (setn n (full a (stacked alpha kx fx fy)) l) m' -> Q tt m') -> wp TT TT (stack alpha kx x ky y a) m Q.
Proof.
  intros HS Hn Hy Hne Hx Bx Nx Rx Cx Ry Cy Ca HQ. unfold stack.
  assert (Hy1 : forall e, nth_error (setn n e l) ny = Some (full y fy)) by (intros e; rewrite nth_setn; destruct (Nat.eqb_spec ny n); [congruence|exact Hy]).
  assert (Hn1 : forall e, nth_error (setn n e l) n = Some e) by (intros e; rewrite nth_setn, Nat.eqb_refl, (nth_lt _ _ _ Hn); reflexivity).
  apply wp_bind, wp_init_sub_amatrix; [lia|lia|].
  apply wp_bind. eapply (s_copyp n false 0 (mrows a) 0 kx) with (f := fx); [exact HS|exact Hn|lia|lia|eapply st_extval; eassumption|exact (st_ext _ _ _ _ _ n _ x HS Hn Bx Nx)|lia|lia|]. intros m1 S1.
  set (e1 := (a, _, _)) in S1.
  apply wp_bind.
  assert (HX : mval m1 (subm a 0 (mrows a) 0 kx) fx).
  { intros i j Hi Hj. cbn in Hi, Hj. rewrite ma_subm. cbn [Nat.add]. pose proof (st_val _ _ _ _ _ S1 e1 (nth_error_In _ _ (Hn1 e1)) i j) as HV. cbn [e1 emat fst snd] in HV. rewrite HV.
    - unfold subval. bsplit; try lia. cbn [tr]. rewrite !Nat.sub_0_r. reflexivity.
    - exact Hi. - lia. - right. unfold insub. lia. }
  eapply wp_conseq with (Q := fun _ m2 => st m0 bs Dm (setn n (a, (fun i j => j < kx), (fun i j => fx i j * alpha)%F) l) m2).
  { destruct (feqb alpha f1) eqn:E.
    - apply (proj1 (fl_eqb K L _ _)) in E. subst alpha. cbn [wp]. eapply st_conv with (n := n) in S1; [rewrite setn_setn in S1; exact S1|exact (Hn1 e1)|]. cbn [e1]. intros i j Hi Hj Hj2. split; [right; unfold insub; lia|].
      unfold subval. bsplit; try lia. cbn [tr]. rewrite !Nat.sub_0_r. ring.
    - eapply (s_scalep n alpha 0 (mrows a) 0 kx) with (B := a); [exact S1|exact (Hn1 e1)|lia|lia|exact HX|]. intros m2 S2. rewrite setn_setn in S2.
      match type of S2 with st _ _ _ (setn _ ?e _) _ => eapply st_conv with (n := n) in S2; [rewrite setn_setn in S2; exact S2|exact (Hn1 e)|] end. cbv beta. intros i j Hi Hj Hj2. split; [right; unfold insub; lia|].
      unfold subval at 1. bsplit; try lia. rewrite !Nat.sub_0_r. reflexivity. }
  cbv beta. intros [] m2 S2. clear HX S1 e1. set (e2 := (a, _, _)) in S2. apply wp_bind, s_unsub.
  apply wp_bind, wp_init_sub_amatrix; [lia|lia|].
  apply wp_bind. eapply (s_copyp n false 0 (mrows a) kx ky) with (f := fy); [exact S2|exact (Hn1 e2)|lia|lia|eapply st_mval; [exact S2|apply Hy1]| |lia|lia|].
  { exact (st_neq _ _ _ _ _ ny n _ _ S2 (Hy1 e2) (Hn1 e2) ltac:(lia)). }
  cbn [tr]. intros m3 S3. apply s_unsub, HQ. rewrite setn_setn in S3. 
  match type of S3 with st _ _ _ (setn _ ?e _) _ => eapply st_conv with (n := n) in S3; [rewrite setn_setn in S3; exact S3|exact (Hn1 e)|] end. cbv beta. intros i j Hi Hj _. unfold insub. split; [lia|].
  unfold stacked, subval. bsplit; try lia; try reflexivity; try (rewrite Nat.sub_0_r; reflexivity).
Qed.
Lemma s_stack_rk r m l m1 alpha src f g fs gs (Q : mat * mat -> mem K -> Prop) : rst m r (full (rk_A r) f :: full (rk_B r) g :: l) m1 ->
  mcols (rk_A r) = rk_k r -> mcols (rk_B r) = rk_k r ->
  mval m (rk_A src) fs -> mval m (rk_B src) gs -> mcols (rk_A src) = rk_k src -> mcols (rk_B src) = rk_k src -> mrows (rk_A src) = mrows (rk_A r) -> mrows (rk_B src) = mrows (rk_B r) ->
  mblk (rk_A src) < next m -> mblk (rk_B src) < next m -> ~ In (mblk (rk_A src)) (rbs r) -> ~ In (mblk (rk_B src)) (rbs r) ->
  (forall a b m', mrows a = mrows (rk_A r) -> mrows b = mrows (rk_B r) -> mcols a = rk_k src + rk_k r -> mcols b = rk_k src + rk_k r ->
     rst m r (full b (stacked f1 (rk_k src) gs g) :: full a (stacked alpha (rk_k src) fs f) :: full (rk_A r) f :: full (rk_B r) g :: l) m' -> Q (a, b) m') ->
  wp TT TT (stack_rk alpha src r) m1 Q.
Proof.
  intros HS Ca Cb Hfs Hgs Cfs Cgs Rs1 Rs2 B1 B2 N1 N2 HQ. unfold stack_rk. cbv zeta.
  apply wp_bind, wp_assert; [apply Nat.eqb_eq, Rs1|]. apply wp_bind, wp_assert; [apply Nat.eqb_eq, Rs2|].
  apply wp_bind. eapply s_init; [exact HS|]. intros a m2 Ra Ka S2. apply wp_bind. eapply s_init; [exact S2|]. intros b m3 Rb Kb S3.
  apply wp_bind. eapply (s_stack 1 2); [exact S3|reflexivity|reflexivity|lia|exact Hfs|exact B1|exact N1|lia|lia|lia|lia|lia|]. cbn [setn]. intros m4 S4.
  apply wp_bind. eapply (s_stack 0 3); [exact S4|reflexivity|reflexivity|lia|exact Hgs|exact B2|exact N2|lia|lia|lia|lia|lia|]. cbn [setn]. intros m5 S5.
  cbn [wp]. apply HQ; try lia. exact S5.
Qed.
Lemma lowrank_stacked alpha ks kr fs f gs g i j : lowrank (ks + kr) (stacked alpha ks fs f) (stacked f1 ks gs g) i j = (lowrank kr f g i j + alpha * lowrank ks fs gs i j)%F.
Proof.
  unfold lowrank. rewrite (sum_app RL).
  transitivity (sum ks (fun p => alpha * (fs i p * fconj (gs j p))) + sum kr (fun p => f i p * fconj (g j p)))%F; [|rewrite (sum_mul_l RL); ring].
  f_equal; apply sum_ext; intros p Hp; unfold stacked; bsplit; try lia.
  - rewrite (rl_conj_mul K RL), (fconj_1 RL). ring.
  - replace (ks + p - ks) with p by lia. reflexivity.
Qed.

(** The operands: [src] is separate from [r] *)
Definition sepsrc m r src : Prop := mblk (rk_A src) < next m /\ mblk (rk_B src) < next m /\ ~ In (mblk (rk_A src)) (rbs r) /\ ~ In (mblk (rk_B src)) (rbs r) /\
  mcols (rk_A src) = rk_k src /\ mcols (rk_B src) = rk_k src /\ mrows (rk_A src) = mrows (rk_A r) /\ mrows (rk_B src) = mrows (rk_B r).
Lemma wp_add_ab alpha src r m f g fs gs (Q : rkm -> mem K -> Prop) : rkown m r -> mval m (rk_A r) f -> mval m (rk_B r) g -> sepsrc m r src -> mval m (rk_A src) fs -> mval m (rk_B src) gs ->
  mrows (rk_A r) <= rk_k src + rk_k r -> dom (mrows (rk_A r)) (mrows (rk_B r)) ->
  (forall r' m', trunc_post (rk_k src + rk_k r) m r (fun i j => lowrank (rk_k r) f g i j + alpha * lowrank (rk_k src) fs gs i j)%F r' m' -> Q r' m') -> wp TT TT (add_ab_rkmatrix svd rank alpha src r) m Q.
Proof.
  intros HO Hf Hg HSep Hfs Hgs Hle Hd HQ. pose proof (rst_start _ _ _ _ HO Hf Hg) as S0. destruct HO as (_ & _ & _ & _ & _ & _ & _ & Ca & Cb & _). destruct HSep as (B1 & B2 & N1 & N2 & X1 & X2 & X3 & X4). unfold add_ab_rkmatrix.
  apply wp_bind. eapply s_stack_rk; try eassumption. intros a b m1 Ra Rb Ka Kb S1. cbn iota beta.
  apply wp_bind. eapply (s_svd_ab L orth good dom svd Hsvd 1 0); [exact S1|reflexivity|reflexivity|lia|rewrite Ra, Rb; exact Hd|]. cbv zeta. rewrite Ra, Rb, Ka. intros c u vt sigma U s V m2 HV E1 E2 E3 E4 E5 S2.
  apply wp_bind. eapply (s_rank good chosen rank Hrank 0); [exact S2|reflexivity|rewrite E5; apply HV|]. intros k Hk HCh. rewrite E5 in Hk, HCh.
  apply wp_bind. eapply (s_setrank 6 7); [exact S2|reflexivity|reflexivity|lia|]. cbn [setn]. intros r' m3 R1 R2 C1 C2 Rk S3.
  apply (st_perm _ _ _ _ [evec sigma s; full vt V; full u U; unk c; unk (rk_A r'); unk (rk_B r'); full b (stacked f1 (rk_k src) gs g); full a (stacked alpha (rk_k src) fs f)]) in S3.
  2: { do 4 apply perm_skip. apply (Permutation_app_comm [_; _] [_; _]). }
  apply wp_bind. eapply (s_fin_ab L); [exact S3|lia|lia|exact C1|exact C2|exact Hk|exact E2|exact E3|exact E5|apply HV|]. intros A B m4 HA HB S4.
  apply wp_bind. eapply (s_uninitv 0); [exact S4|reflexivity|]. cbn [deln]. intros m5 S5.
  apply wp_bind. eapply (s_uninit 0); [exact S5|reflexivity|]. cbn [deln]. intros m6 S6.
  apply wp_bind. eapply (s_uninit 0); [exact S6|reflexivity|]. cbn [deln]. intros m7 S7.
  apply wp_bind. eapply (s_uninit 0); [exact S7|reflexivity|]. cbn [deln]. intros m8 S8.
  apply wp_bind. eapply (s_uninit 2); [exact S8|reflexivity|]. cbn [deln]. intros m9 S9.
  apply wp_bind. eapply (s_uninit 2); [exact S9|reflexivity|]. cbn [deln]. intros m10 S10. cbn [wp]. apply HQ.
  eapply rst_end; [exact S10|lia|lia|exact R1|exact R2| |lia]. rewrite Rk.
  eapply truncated_ext; [| |eapply (math_ab L); [exact HV|exact Hk|exact HCh]].
  - intros i j _ _. cbv beta. symmetry. apply lowrank_stacked.
  - intros i j Hi Hj. eapply lowrank_ext; [| |exact Hi|exact Hj].
    + intros i' q Hi' Hq. apply HA; lia.
    + intros i' q Hi' Hq. apply HB; lia.
Qed.
Lemma wp_add_qb alpha src r m f g fs gs (Q : rkm -> mem K -> Prop) : rkown m r -> mval m (rk_A r) f -> mval m (rk_B r) g -> sepsrc m r src -> mval m (rk_A src) fs -> mval m (rk_B src) gs ->
  rk_k src + rk_k r <= mrows (rk_A r) -> dom (mrows (rk_B r)) (rk_k src + rk_k r) ->
  (forall r' m', trunc_post (rk_k src + rk_k r) m r (fun i j => lowrank (rk_k r) f g i j + alpha * lowrank (rk_k src) fs gs i j)%F r' m' -> Q r' m') -> wp TT TT (add_qb_rkmatrix O svd rank alpha src r) m Q.
Proof.
  intros HO Hf Hg HSep Hfs Hgs Hle Hd HQ. pose proof (rst_start _ _ _ _ HO Hf Hg) as S0. destruct HO as (_ & _ & _ & _ & _ & _ & _ & Ca & Cb & _). destruct HSep as (B1 & B2 & N1 & N2 & X1 & X2 & X3 & X4). unfold add_qb_rkmatrix.
  apply wp_bind. eapply s_stack_rk; try eassumption. intros a b m1 Ra Rb Ka Kb S1. cbn iota beta.
  apply wp_bind. eapply (s_svd_q L O H orth good dom svd Hsvd 1 0); [exact S1|reflexivity|reflexivity|lia|lia|lia|rewrite Rb, Ka; exact Hd|]. cbv zeta. rewrite Ra, Rb, Ka. cbn [setn].
  intros tau u vt sigma F t C U s V m2 HF HC HV Dt E1 E2 E3 E4 E5 S2.
  apply wp_bind. eapply (s_rank good chosen rank Hrank 0); [exact S2|reflexivity|rewrite E5; apply HV|]. intros k Hk HCh. rewrite E5 in Hk, HCh.
  apply wp_bind. eapply (s_setrank 6 7); [exact S2|reflexivity|reflexivity|lia|]. cbn [setn]. intros r' m3 R1 R2 C1 C2 Rk S3.
  apply (st_perm _ _ _ _ [evec sigma s; full vt V; full u U; evec tau t; full a F; unk (rk_B r'); unk (rk_A r'); unk b]) in S3.
  2: { do 4 apply perm_skip. eapply perm_trans; [apply perm_swap|]. apply perm_skip. eapply perm_trans; [apply perm_skip, perm_swap|]. eapply perm_trans; [apply perm_swap|]. apply perm_skip, perm_swap. }
  apply wp_bind. eapply (s_fin_q L) with (k := k); [exact S3|lia|lia|lia|lia|exact Hk|exact E2|exact E3|lia|lia|exact E5|lia|apply HV|]. intros B A m5 HB HA S5.
  apply wp_bind. eapply (s_uninitv 0); [exact S5|reflexivity|]. cbn [deln]. intros m6 S6.
  apply wp_bind. eapply (s_uninit 0); [exact S6|reflexivity|]. cbn [deln]. intros m7 S7.
  apply wp_bind. eapply (s_uninit 0); [exact S7|reflexivity|]. cbn [deln]. intros m8 S8.
  apply wp_bind. eapply (s_uninit 3); [exact S8|reflexivity|]. cbn [deln]. intros m9 S9. 
  apply wp_bind. eapply (s_uninit 0); [exact S9|reflexivity|]. cbn [deln]. intros m10 S10. cbn [wp]. apply HQ.
  apply (st_perm _ _ _ _ _ _ (perm_swap _ _ _)) in S10.
  eapply rst_end; [exact S10|lia|lia|exact R1|exact R2| |lia]. rewrite Rk.
  eapply truncated_ext; [| |apply (truncated_sym L); eapply (math_q L O HZ); [exact HF|exact Hle|exact HC|exact HV|exact Hk|exact HCh]].
  - intros i j _ _. cbv beta. rewrite (lowrank_conj L). symmetry. apply lowrank_stacked.
  - intros i j Hi Hj. cbv beta. rewrite (lowrank_conj L). eapply lowrank_ext; [| |exact Hi|exact Hj].
    + intros i' q Hi' Hq. rewrite Ra, Ka in HA. apply HA; lia.
    + intros i' q Hi' Hq. apply HB; lia.
Qed.
Lemma wp_add_aq alpha src r m f g fs gs (Q : rkm -> mem K -> Prop) : rkown m r -> mval m (rk_A r) f -> mval m (rk_B r) g -> sepsrc m r src -> mval m (rk_A src) fs -> mval m (rk_B src) gs ->
  rk_k src + rk_k r <= mrows (rk_B r) -> dom (mrows (rk_A r)) (rk_k src + rk_k r) ->
  (forall r' m', trunc_post (rk_k src + rk_k r) m r (fun i j => lowrank (rk_k r) f g i j + alpha * lowrank (rk_k src) fs gs i j)%F r' m' -> Q r' m') -> wp TT TT (add_aq_rkmatrix O svd rank alpha src r) m Q.
Proof.
  intros HO Hf Hg HSep Hfs Hgs Hle Hd HQ. pose proof (rst_start _ _ _ _ HO Hf Hg) as S0. destruct HO as (_ & _ & _ & _ & _ & _ & _ & Ca & Cb & _). destruct HSep as (B1 & B2 & N1 & N2 & X1 & X2 & X3 & X4). unfold add_aq_rkmatrix.
  apply wp_bind. eapply s_stack_rk; try eassumption. intros a b m1 Ra Rb Ka Kb S1. cbn iota beta.
  apply wp_bind. eapply (s_svd_q L O H orth good dom svd Hsvd 0 1); [exact S1|reflexivity|reflexivity|lia|lia|lia|rewrite Ra, Kb; exact Hd|]. cbv zeta. rewrite Ra, Rb, Kb. cbn [setn].
  intros tau u vt sigma F t C U s V m2 HF HC HV Dt E1 E2 E3 E4 E5 S2.
  apply wp_bind. eapply (s_rank good chosen rank Hrank 0); [exact S2|reflexivity|rewrite E5; apply HV|]. intros k Hk HCh. rewrite E5 in Hk, HCh.
  apply wp_bind. eapply (s_setrank 6 7); [exact S2|reflexivity|reflexivity|lia|]. cbn [setn]. intros r' m3 R1 R2 C1 C2 Rk S3.
  apply (st_perm _ _ _ _ [evec sigma s; full vt V; full u U; evec tau t; full b F; unk (rk_A r'); unk (rk_B r'); unk a]) in S3.
  2: { do 5 apply perm_skip. apply (Permutation_app_comm [_] [_; _]). }
  apply wp_bind. eapply (s_fin_q L) with (k := k); [exact S3|lia|lia|lia|lia|exact Hk|exact E2|exact E3|lia|lia|exact E5|lia|apply HV|]. intros A B m5 HA HB S5.
  apply wp_bind. eapply (s_uninitv 0); [exact S5|reflexivity|]. cbn [deln]. intros m6 S6.
  apply wp_bind. eapply (s_uninit 0); [exact S6|reflexivity|]. cbn [deln]. intros m7 S7.
  apply wp_bind. eapply (s_uninit 0); [exact S7|reflexivity|]. cbn [deln]. intros m8 S8.
  apply wp_bind. eapply (s_uninit 0); [exact S8|reflexivity|]. cbn [deln]. intros m9 S9. 
  apply wp_bind. eapply (s_uninit 2); [exact S9|reflexivity|]. cbn [deln]. intros m10 S10. cbn [wp]. apply HQ.
  eapply rst_end; [exact S10|lia|lia|exact R1|exact R2| |lia]. rewrite Rk.
  eapply truncated_ext; [| |eapply (math_q L O HZ); [exact HF|exact Hle|exact HC|exact HV|exact Hk|exact HCh]].
  - intros i j _ _. cbv beta. symmetry. apply lowrank_stacked.
  - intros i j Hi Hj. cbv beta. eapply lowrank_ext; [| |exact Hi|exact Hj].
    + intros i' q Hi' Hq. apply HA; lia.
    + intros i' q Hi' Hq. rewrite Rb, Kb in HB. apply HB; lia.
Qed.
Lemma wp_add_qq alpha src r m f g fs gs (Q : rkm -> mem K -> Prop) : rkown m r -> mval m (rk_A r) f -> mval m (rk_B r) g -> sepsrc m r src -> mval m (rk_A src) fs -> mval m (rk_B src) gs ->
  rk_k src + rk_k r <= mrows (rk_A r) -> rk_k src + rk_k r <= mrows (rk_B r) -> dom (rk_k src + rk_k r) (rk_k src + rk_k r) ->
  (forall r' m', trunc_post (rk_k src + rk_k r) m r (fun i j => lowrank (rk_k r) f g i j + alpha * lowrank (rk_k src) fs gs i j)%F r' m' -> Q r' m') -> wp TT TT (add_qq_rkmatrix O svd rank alpha src r) m Q.
Proof.
  intros HO Hf Hg HSep Hfs Hgs Hle Hle2 Hd HQ. pose proof (rst_start _ _ _ _ HO Hf Hg) as S0. destruct HO as (_ & _ & _ & _ & _ & _ & _ & Ca & Cb & _). destruct HSep as (B1 & B2 & N1 & N2 & X1 & X2 & X3 & X4). unfold add_qq_rkmatrix.
  apply wp_bind. eapply s_stack_rk; try eassumption. intros a b m1 Ra Rb Ka Kb S1. cbn iota beta.
  apply wp_bind. eapply (s_svd_qq L O H orth good dom svd Hsvd); [exact S1|lia|lia|lia|rewrite Ka; exact Hd|]. cbv zeta. rewrite Ka, Ra, Rb.
  intros atau btau c u vt sigma FA tA FB tB C U s V m5 HFA HFB HC HV Da Db E1 E2 E3 E4 E5 S5.
  pose proof HV as (V1 & V2 & V3 & V4). rewrite Nat.min_id in V2, V3.
  apply wp_bind. eapply (s_rank good chosen rank Hrank 0); [exact S5|reflexivity|rewrite E5; exact V3|]. intros k Hk HCh. rewrite E5 in Hk, HCh.
  apply wp_bind. eapply (s_setrank 8 9); [exact S5|reflexivity|reflexivity|lia|]. cbn [setn]. intros r' m6 R1 R2 C1 C2 Rk S6.
  apply wp_bind. eapply (s_fin_qq L) with (k := k) (n := rk_k src + rk_k r); [exact S6|lia|lia|lia|lia|exact Hk|assumption|assumption|assumption|assumption|lia|lia|lia|lia|lia|lia|lia|exact V2|]. intros A B m7 HA HB (U' & S7).
  apply wp_bind. eapply (s_uninitv 0); [exact S7|reflexivity|]. cbn [deln]. intros m8 S8.
  apply wp_bind. eapply (s_uninit 0); [exact S8|reflexivity|]. cbn [deln]. intros m9 S9.
  apply wp_bind. eapply (s_uninit 0); [exact S9|reflexivity|]. cbn [deln]. intros m10 S10.
  apply wp_bind. eapply (s_uninit 0); [exact S10|reflexivity|]. cbn [deln]. intros m11 S11.
  apply wp_bind. eapply (s_uninitv 0); [exact S11|reflexivity|]. cbn [deln]. intros m12 S12.
  apply wp_bind. eapply (s_uninit 1); [exact S12|reflexivity|]. cbn [deln]. intros m13 S13.
  apply wp_bind. eapply (s_uninitv 0); [exact S13|reflexivity|]. cbn [deln]. intros m14 S14.
  apply wp_bind. eapply (s_uninit 0); [exact S14|reflexivity|]. cbn [deln]. intros m15 S15. cbn [wp]. apply HQ.
  eapply rst_end; [exact S15|lia|lia|exact R1|exact R2| |lia]. rewrite Rk.
  eapply truncated_ext; [| |eapply (math_qq L O HZ); [exact HFA|exact HFB|exact Hle|exact Hle2|exact HC|exact HV|exact Hk|exact HCh]].
  - intros i j _ _. cbv beta. symmetry. apply lowrank_stacked.
  - intros i j Hi Hj. cbv beta. eapply lowrank_ext; [| |exact Hi|exact Hj].
    + intros i' q Hi' Hq. rewrite Ra in HA. apply HA; lia.
    + intros i' q Hi' Hq. rewrite Rb in HB. apply HB; lia.
Qed.
Lemma wp_add_rk alpha src r m D E (Q : rkm -> mem K -> Prop) : rkown m r -> rkrep m r D -> rkrep m src E ->
  mrows (rk_A src) = mrows (rk_A r) -> mrows (rk_B src) = mrows (rk_B r) -> mblk (rk_A src) < next m -> mblk (rk_B src) < next m ->
  ~ In (mblk (rk_A src)) (rbs r) -> ~ In (mblk (rk_B src)) (rbs r) -> rk_k src <> 0 ->
  (let k := rk_k src + rk_k r in let a := Nat.min (mrows (rk_A r)) k in let b := Nat.min (mrows (rk_B r)) k in dom a b /\ dom b a) ->
  (forall r' m', trunc_post (rk_k src + rk_k r) m r (fun i j => D i j + alpha * E i j)%F r' m' -> Q r' m') -> wp TT TT (add_rkmatrix O svd rank alpha src r) m Q.
Proof.
  intros HO (f & g & Hf & Hg & Ca & Cb & HD) (fs & gs & Hfs & Hgs & Cas & Cbs & HE) R1 R2 B1 B2 N1 N2 Hk [Hd1 Hd2] HQ. unfold add_rkmatrix.
  destruct (Nat.eqb_spec (rk_k src) 0) as [|_]; [contradiction|]. cbv zeta.
  assert (HSep : sepsrc m r src) by (repeat split; assumption).
  assert (HQ' : forall r' m', trunc_post (rk_k src + rk_k r) m r (fun i j => lowrank (rk_k r) f g i j + alpha * lowrank (rk_k src) fs gs i j)%F r' m' -> Q r' m').
  { intros r' m' HP. apply HQ. eapply trunc_post_ext; [|exact HP]. intros i j Hi Hj. cbv beta. rewrite HD, HE by lia. reflexivity. }
  destruct (Nat.ltb_spec (rk_k src + rk_k r) (mrows (rk_A r))); destruct (Nat.ltb_spec (rk_k src + rk_k r) (mrows (rk_B r))).
  - rewrite !Nat.min_r in Hd1 by lia. eapply wp_add_qq; try eassumption; lia.
  - rewrite (Nat.min_l (mrows (rk_B r))), (Nat.min_r (mrows (rk_A r))) in Hd2 by lia. eapply wp_add_qb; try eassumption; lia.
  - rewrite (Nat.min_r (mrows (rk_B r))), (Nat.min_l (mrows (rk_A r))) in Hd1 by lia. eapply wp_add_aq; try eassumption; lia.
  - rewrite !Nat.min_l in Hd1 by lia. eapply wp_add_ab; eassumption.
Qed.
End P.
