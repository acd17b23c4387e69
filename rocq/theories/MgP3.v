(** * Merging of low-rank matrices: the complete functions *)
From Coq Require Import Arith Lia List Bool Permutation Ring.
From Verif Require Import Fld Ord Prog Arr View Loop Line Spec Cluster Block Avector Amatrix AvectorP AmatrixP AmatrixP2 Rkmatrix RkSpec RkP Factor FactorSpec FactorP FactorP2 FactorP3 LrP
  Chol CholSpec CholP5 Qr QrSpec QrP QrP2 QrP3 QrP4 QrP7 QrP8 QrP10 CbmSpec CbmP CopSpec OrthoP OrthoP3 SepP SepP2 SepP3 Htrunc HtSpec HtP HtP2 HtP3 Hadd MgP MgP2.
Import ListNotations.

Section P.
Context {K : fops} (L : field_laws K) (O : qops K) (H : qlaws O) (HZ : exact_zero O).
Context (orth : Prop) (good : nat -> (nat -> K) -> Prop) (chosen : nat -> (nat -> K) -> nat -> Prop) (dom : nat -> nat -> Prop).
Context (svd : mat -> vec -> mat -> mat -> prog K unit) (rank : vec -> prog K nat) (Hsvd : svd_ok orth good dom svd) (Hrank : rank_ok good chosen rank).
Notation RL := (fl_ring K L).
Add Ring KringMg3 : (rl_ring K (fl_ring K L)).
Implicit Types (m : mem K) (D : nat -> Prop) (bs : list nat) (l : list (ent (K := K))) (f g F U V C : nat -> nat -> K) (s t : nat -> K).
Notation up F := (tripart false false F).
Notation evec sigma s := (full (vm sigma) (fun i _ => s i)).
Notation truncated := (truncated orth good chosen).

Lemma s_merge_svd m0 bs D l m n k1 x1 f1' y1 g1 k2 x2 f2' y2 g2 Q : st m0 bs D l m ->
  source m0 bs l x1 f1' -> source m0 bs l y1 g1 -> source m0 bs l x2 f2' -> source m0 bs l y2 g2 ->
  mrows x1 = n -> mcols x1 = k1 -> mrows x2 = n -> mcols x2 = k2 -> mcols y1 = k1 -> mcols y2 = k2 ->
  let kr1 := Nat.min (mrows y1) k1 in let kr2 := Nat.min (mrows y2) k2 in let kk := kr1 + kr2 in dom n kk ->
  (forall a1 tau1 F1 t1 a2 tau2 F2 t2 c u vt sigma U s V m', let k := Nat.min n kk in
     (forall kn, kn <= k -> chosen k s kn -> truncated n (mrows y1 + mrows y2) (aside (mrows y1) (lowrank k1 f1' g1) (lowrank k2 f2' g2))
        (lowrank kn (fun i q => U i q * s q)%F (below (mrows y1) (qpart (mrows y1) F1 t1 kr1 (tr true V)) (qpart (mrows y2) F2 t2 kr2 (fun r q => tr true V (kr1 + r)%nat q)))) kn) ->
     (forall i, i < k -> fconj (s i) = s i) -> good k s ->
     mrows a1 = mrows y1 -> mcols a1 = k1 -> vdim tau1 = kr1 -> mrows a2 = mrows y2 -> mcols a2 = k2 -> vdim tau2 = kr2 ->
     mrows u = n -> mcols u = k -> mrows vt = k -> mcols vt = kk -> vdim sigma = k ->
     st m0 bs D (evec sigma s :: full vt V :: full u U :: unk c :: evec tau2 t2 :: full a2 F2 :: evec tau1 t1 :: full a1 F1 :: l) m' ->
     (Q : mat * vec * (mat * vec) * mat * (mat * mat * vec) -> mem K -> Prop) (a1, tau1, (a2, tau2), c, (u, vt, sigma)) m') ->
  wp TT TT (merge_svd O svd n k1 x1 y1 k2 x2 y2) m Q.
Proof.
  intros HS X1 Y1 X2 Y2 R1 C1 R2 C2 D1 D2 kr1 kr2 kk Hd HQ. unfold merge_svd. cbv zeta. fold kr1 kr2. fold kk.
  apply wp_bind. eapply s_beside; [exact HS|exact X1|exact X2|exact R1|exact C1|exact R2|exact C2|]. intros b m1 Rb Cb S1.
  apply wp_bind. eapply (s_qrcopy L O H); [exact S1|apply source_cons, Y1|exact D1|]. intros a1 tau1 F1 t1 m2 Ra1 Ca1 Et1 HF1 S2.
  apply wp_bind. eapply (s_qrcopy L O H); [exact S2|do 3 apply source_cons; exact Y2|exact D2|]. intros a2 tau2 F2 t2 m3 Ra2 Ca2 Et2 HF2 S3.
  apply wp_bind. eapply s_init; [exact S3|]. intros c m4 Rc Cc S4. cbn [fst snd].
  apply wp_bind. eapply (s_times_r L 4 5 0 n 0 0); [exact S4|reflexivity|reflexivity|reflexivity|lia|lia|lia|exact Rb|exact Rc|lia|rewrite Ra1, Ca1; fold kr1; lia|]. rewrite Ra1, Ca1. fold kr1. cbn [setn].
  intros g' m5 Hg' S5.
  apply wp_bind. eapply (s_times_r L 2 5 0 n k1 kr1); [exact S5|reflexivity|reflexivity|reflexivity|lia|lia|lia|exact Rb|exact Rc|lia|rewrite Ra2, Ca2; fold kr2; lia|]. rewrite Ra2, Ca2. fold kr2. cbn [setn].
  intros g'' m6 _ S6.
  apply wp_bind. eapply (s_uninit 5); [exact S6|reflexivity|]. cbn [deln]. intros m7 S7.
  set (CC := (aside kr1 (fun i r => sum k1 (fun p => f1' i p * fconj (up F1 r p))) (fun i r => sum k2 (fun p => f2' i p * fconj (up F2 r p))))%F).
  eapply (st_conv _ _ _ _ _ 0 _ _ _ (fun _ _ => True) CC) in S7; [|reflexivity|].
  2: { intros i j Hi Hj _. split; [unfold insub; lia|]. unfold CC, aside, subval. destruct (Nat.ltb_spec j kr1).
       - bsplit; try lia. rewrite ?Nat.sub_0_r. apply sum_ext. intros p Hp. cbn [Nat.add]. rewrite (proj2 (Nat.ltb_lt p k1)) by exact Hp. reflexivity.
       - bsplit; try lia. apply sum_ext. intros p Hp. rewrite Hg', Nat.sub_0_r by lia. unfold aside. bsplit; try lia. replace (k1 + p - k1) with p by lia. reflexivity. }
  cbn [setn] in S7.
  apply wp_bind. eapply (s_svd_of orth good dom svd Hsvd 0) with (C := c) (f := CC); [exact S7|reflexivity|auto|reflexivity| | |rewrite Rc, Cc; exact Hd|].
  { destruct (st_own _ _ _ _ _ 0 _ _ _ S7 eq_refl) as (_ & _ & W & _). exact W. }
  { eapply (st_mval _ _ _ _ _ 0); [exact S7|reflexivity]. }
  cbv zeta. rewrite Rc, Cc. cbn [setn]. intros u vt sigma U s V m8 HV E1 E2 E3 E4 E5 S8. cbn [wp].
  eapply HQ; [|apply HV|apply HV|assumption|assumption|assumption|assumption|assumption|assumption|assumption|assumption|assumption|assumption|assumption|exact S8].
  intros kn Hkn HCh. eapply (math_merge L O HZ orth good chosen); [exact HF1|exact HF2| |exact HV|exact Hkn|exact HCh]. intros i r Hi Hr. reflexivity.
Qed.

Lemma s_copypf n (t : bool) roff rows coff cols m0 bs D l m A f B g (Q : unit -> mem K -> Prop) : st m0 bs D l m -> nth_error l n = Some (full B g) ->
  roff + rows <= mrows B -> coff + cols <= mcols B ->
  mval m A f -> mblk A <> mblk B -> (if t then mcols A else mrows A) = rows -> (if t then mrows A else mcols A) = cols ->
  (forall m', st m0 bs D (setn n (full B (subval roff rows coff cols (tr t f) g)) l) m' -> Q tt m') ->
  wp TT TT (copy_amatrix t A (subm B roff rows coff cols)) m Q.
Proof.
  intros HS Hn Hr Hc HA Hne E1 E2 HQ. eapply s_copyp; [exact HS|exact Hn|exact Hr|exact Hc|exact HA|exact Hne|exact E1|exact E2|]. intros m' S1. apply HQ.
  match type of S1 with st _ _ _ (setn _ ?e _) _ => eapply (st_conv _ _ _ _ _ n) in S1; [rewrite setn_setn in S1; exact S1| |] end.
  - rewrite nth_setn, Nat.eqb_refl, (nth_lt _ _ _ Hn). reflexivity.
  - cbv beta. intros i j _ _ _. split; [left; exact I|reflexivity].
Qed.
Lemma s_copy_v nv ny knew kr voff yoff m0 bs D l m vt V y g (Q : unit -> mem K -> Prop) : st m0 bs D l m -> nth_error l nv = Some (full vt V) -> nth_error l ny = Some (full y g) -> nv <> ny ->
  knew <= mrows vt -> voff + kr <= mcols vt -> yoff + kr <= mrows y -> knew <= mcols y ->
  (forall m', st m0 bs D (setn ny (full y (subval yoff kr 0 knew (fun i j => tr true V (voff + i)%nat j) g)) l) m' -> Q tt m') -> wp TT TT (copy_v knew kr vt voff y yoff) m Q.
Proof.
  intros HS Hv Hy Hne H1 H2 H3 H4 HQ. unfold copy_v. apply wp_bind, wp_init_sub_amatrix; [lia|lia|]. apply wp_bind, wp_init_sub_amatrix; [lia|lia|].
  apply wp_bind. eapply (s_copypf ny true yoff kr 0 knew) with (f := fun i j => V (0 + i)%nat (voff + j)%nat); [exact HS|exact Hy|lia|lia| | |reflexivity|reflexivity|].
  { apply mval_subm; [eapply st_mval; [exact HS|exact Hv]|lia|lia]. }
  { exact (st_neq _ _ _ _ _ nv ny _ _ HS Hv Hy Hne). }
  intros m' S1. apply wp_bind, s_unsub, s_unsub, HQ. exact S1.
Qed.
Lemma s_apply_q na nt ny yoff knew m0 bs D l m a F tau t y g (Q : unit -> mem K -> Prop) : st m0 bs D l m -> nth_error l na = Some (full a F) -> nth_error l nt = Some (evec tau t) -> nth_error l ny = Some (full y g) -> na <> ny -> nt <> ny ->
  vdim tau = Nat.min (mrows a) (mcols a) -> yoff + mrows a <= mrows y -> knew = mcols y ->
  (forall m', st m0 bs D (setn ny (full y (subval yoff (mrows a) 0 knew (mmul (mrows a) (qmat (mrows a) F t (Nat.min (mrows a) (mcols a))) (fun i j => g (yoff + i)%nat j)) g)) l) m' -> Q tt m') ->
  wp TT TT (apply_q a tau y yoff knew) m Q.
Proof.
  intros HS Ha Ht Hy N1 N2 E1 E2 -> HQ. unfold apply_q. apply wp_bind, wp_init_sub_amatrix; [lia|lia|].
  apply wp_bind. eapply (s_qrevalp L ny yoff); [exact HS|exact Hy|eapply st_mval; [exact HS|exact Ha]|eapply (st_vval nt); [exact HS|exact Ht]| | |exact E1|exact E2|].
  { exact (st_neq _ _ _ _ _ na ny _ _ HS Ha Hy N1). }
  { exact (st_neq _ _ _ _ _ nt ny _ _ HS Ht Hy N2). }
  intros m' S1. apply s_unsub, HQ. exact S1.
Qed.
Lemma s_merge_fin n knew k kr1 kr2 m0 bs D l m a1 tau1 F1 t1 a2 tau2 F2 t2 c u vt sigma U s V x y (Q : unit -> mem K -> Prop) :
  st m0 bs D (evec sigma s :: full vt V :: full u U :: unk c :: evec tau2 t2 :: full a2 F2 :: evec tau1 t1 :: full a1 F1 :: unk x :: unk y :: l) m ->
  kr1 = Nat.min (mrows a1) (mcols a1) -> kr2 = Nat.min (mrows a2) (mcols a2) -> vdim tau1 = kr1 -> vdim tau2 = kr2 -> mrows u = n -> mcols u = k -> mrows vt = k -> mcols vt = kr1 + kr2 -> vdim sigma = k ->
  knew <= k -> mrows x = n -> mcols x = knew -> mrows y = mrows a1 + mrows a2 -> mcols y = knew -> (forall i, i < k -> fconj (s i) = s i) ->
  (forall A B m', (forall i j, i < n -> j < knew -> A i j = (U i j * s j)%F) ->
     (forall i j, i < mrows a1 + mrows a2 -> j < knew -> B i j = below (mrows a1) (qpart (mrows a1) F1 t1 kr1 (tr true V)) (qpart (mrows a2) F2 t2 kr2 (fun r q => tr true V (kr1 + r)%nat q)) i j) ->
     st m0 bs D (full x A :: full y B :: l) m' -> Q tt m') ->
  wp TT TT (merge_fin n knew (a1, tau1) (a2, tau2) c u vt sigma x y) m Q.
Proof.
  intros HS K1 K2 T1 T2 Ru Cu Rv Cv Es Hkn Rx Cx Ry Cy Hs HQ. unfold merge_fin. cbn [fst snd]. cbv zeta. rewrite <- K1, <- K2.
  assert (L1 : kr1 <= mrows a1) by lia. assert (L2 : kr2 <= mrows a2) by lia.
  apply wp_bind, wp_init_sub_amatrix; [lia|lia|].
  apply wp_bind. eapply (s_copy 8 false) with (f := fun i j => U (0 + i)%nat (0 + j)%nat); [exact HS|reflexivity| | |cbn [subm mrows]; lia|cbn [subm mcols]; lia|].
  { apply mval_subm; [eapply (st_mval _ _ _ _ _ 2); [exact HS|reflexivity]|lia|lia]. }
  { exact (st_neq _ _ _ _ _ 2 8 _ _ HS eq_refl eq_refl ltac:(lia)). }
  cbn [setn tr Nat.add]. intros m1 S1. apply wp_bind, s_unsub.
  apply wp_bind. eapply (s_uninit 2); [exact S1|reflexivity|]. cbn [deln]. intros m2 S2.
  apply wp_bind. eapply (s_clear 8); [exact S2|reflexivity|]. cbn [setn]. intros m3 S3.
  apply wp_bind. eapply (s_copy_v 1 8); [exact S3|reflexivity|reflexivity|lia|lia|lia|lia|lia|]. cbn [setn]. intros m4 S4.
  apply wp_bind. eapply (s_copy_v 1 8); [exact S4|reflexivity|reflexivity|lia|lia|lia|lia|lia|]. cbn [setn]. intros m5 S5.
  apply wp_bind. eapply (s_uninit 1); [exact S5|reflexivity|]. cbn [deln]. intros m6 S6.
  apply wp_bind. eapply (s_apply_q 5 4 7); [exact S6|reflexivity|reflexivity|reflexivity|lia|lia|lia|lia|lia|]. cbn [setn]. intros m7 S7.
  apply wp_bind. eapply (s_apply_q 3 2 7); [exact S7|reflexivity|reflexivity|reflexivity|lia|lia|lia|lia|lia|]. cbn [setn]. intros m8 S8.
  apply wp_bind. eapply (s_uninitv 2); [exact S8|reflexivity|]. cbn [deln]. intros m9 S9.
  apply wp_bind. eapply (s_uninit 2); [exact S9|reflexivity|]. cbn [deln]. intros m10 S10.
  apply wp_bind. eapply (s_uninitv 2); [exact S10|reflexivity|]. cbn [deln]. intros m11 S11.
  apply wp_bind. eapply (s_uninit 2); [exact S11|reflexivity|]. cbn [deln]. intros m12 S12.
  apply wp_bind. eapply (s_diag L 2) with (s := s); [exact S12|reflexivity|eapply (st_vval 0); [exact S12|reflexivity]| |intros i Hi; apply Hs; lia|cbn; lia|].
  { exact (st_neq _ _ _ _ _ 0 2 _ _ S12 eq_refl eq_refl ltac:(lia)). }
  cbn [setn]. intros A m13 HA S13.
  apply wp_bind. eapply (s_uninitv 0); [exact S13|reflexivity|]. cbn [deln]. intros m14 S14.
  eapply (s_uninit 0); [exact S14|reflexivity|]. cbn [deln]. intros m15 S15. eapply HQ; [| |exact S15].
  - intros i j Hi Hj. assert (HE : fconj (A i j) = (f1 * s j * fconj (U i j))%F) by (apply (HA j i); lia). rewrite <- (rl_conj_conj K RL (A i j)), HE, !(rl_conj_mul K RL), (rl_conj_conj K RL), Hs by lia.
    rewrite (fconj_1 RL). ring.
  - intros i j Hi Hj. rewrite <- K1, <- K2. unfold below. destruct (Nat.ltb_spec i (mrows a1)) as [Hl|Hl].
    + unfold subval at 1. rewrite (proj2 (Nat.leb_gt (mrows a1) i)) by lia. cbn [andb]. unfold subval at 1. cbn [Nat.leb Nat.add andb].
      rewrite (proj2 (Nat.ltb_lt i _)), (proj2 (Nat.ltb_lt j _)) by lia. cbn [andb]. rewrite !Nat.sub_0_r. apply qpart_mmul; [exact L|exact L1| |].
      * intros r Hr. unfold subval. bsplit; try lia. rewrite !Nat.sub_0_r. reflexivity.
      * intros r Hr Hr2. unfold subval. bsplit; try lia; reflexivity.
    + unfold subval at 1. rewrite (proj2 (Nat.leb_le (mrows a1) i)) by lia. cbn [andb Nat.leb Nat.add].
      rewrite (proj2 (Nat.ltb_lt i _)), (proj2 (Nat.ltb_lt j _)) by lia. cbn [andb]. rewrite !Nat.sub_0_r. apply qpart_mmul; [exact L|exact L2| |].
      * intros r Hr. unfold subval. bsplit; try lia. rewrite !Nat.sub_0_r. replace (mrows a1 + r - mrows a1) with r by lia. reflexivity.
      * intros r Hr Hr2. unfold subval. bsplit; try lia; reflexivity.
Qed.

Definition merge_post m (r : rkm) (R C : nat) (D : nat -> nat -> K) (r' : rkm) m' : Prop :=
  exists (D' : nat -> nat -> K), rkrep m' r' D' /\ mrows (rk_A r') = R /\ mrows (rk_B r') = C /\ truncated R C D D' (rk_k r') /\ replaced m r m' r'.
Lemma merge_end m r r' f g m' (R C : nat) (D : nat -> nat -> K) : rst m r [full (rk_A r') f; full (rk_B r') g] m' ->
  mcols (rk_A r') = rk_k r' -> mcols (rk_B r') = rk_k r' -> mrows (rk_A r') = R -> mrows (rk_B r') = C ->
  truncated R C D (lowrank (rk_k r') f g) (rk_k r') -> merge_post m r R C D r' m'.
Proof.
  intros HS C1 C2 R1 R2 HT. exists (lowrank (rk_k r') f g).
  pose proof (st_own _ _ _ _ _ 0 _ _ _ HS eq_refl) as (A1 & A2 & A3 & A4). pose proof (st_own _ _ _ _ _ 1 _ _ _ HS eq_refl) as (B1 & B2 & B3 & B4).
  pose proof (st_neq _ _ _ _ _ 0 1 _ _ HS eq_refl eq_refl ltac:(lia)) as HN. cbn in HN.
  split; [|split; [exact R1|split; [exact R2|split; [exact HT|]]]].
  - exists f, g. split; [eapply (st_mval _ _ _ _ _ 0); [exact HS|reflexivity]|]. split; [eapply (st_mval _ _ _ _ _ 1); [exact HS|reflexivity]|]. auto.
  - split; [repeat split; assumption|]. destruct HS as [(_ & _ & _ & HF) _ HK HO]. split; [|split].
    + assert (HB : forall b, In b (rbs r) \/ next m <= b -> (b = mblk (rk_A r) \/ b = mblk (rk_B r)) \/ next m <= b) by (cbn; intros b [[E|[E|[]]]|E]; auto).
      intros a [E|E]; rewrite E; unfold rkblk; rewrite E; apply HB; [apply (HO _ (or_introl eq_refl))|apply (HO _ (or_intror (or_introl eq_refl)))].
    + intros a Ha Hno. apply (proj2 HK). cbn. intros [[E|[E|[]]]|E]; [apply Hno; left; auto|apply Hno; right; auto|lia].
    + intros a Ha Hno. apply HF; [unfold rD, rkblk in *; tauto|]. cbn. intros [E|[E|[]]]; apply Hno; [left|right]; auto.
Qed.
Lemma s_resize_rk nA nB m0 bs D l m r rows cols k okA fA okB fB (Q : rkm -> mem K -> Prop) : st m0 bs D l m -> nth_error l nA = Some (rk_A r, okA, fA) -> nth_error l nB = Some (rk_B r, okB, fB) -> nA <> nB ->
  (forall r' m', mrows (rk_A r') = rows -> mrows (rk_B r') = cols -> mcols (rk_A r') = k -> mcols (rk_B r') = k -> rk_k r' = k ->
     st m0 bs D (setn nB (unk (rk_B r')) (setn nA (unk (rk_A r')) l)) m' -> Q r' m') -> wp TT TT (resize_rkmatrix r rows cols k) m Q.
Proof.
  intros HS HA HB Hne HQ. unfold resize_rkmatrix. apply wp_bind. eapply s_resize; [exact HS|exact HA|]. intros A m1 A1 A2 H1.
  apply wp_bind. eapply (s_resize nB _ _ _ _ _ (rk_B r) okB fB); [exact H1| |].
  { rewrite nth_setn. destruct (Nat.eqb_spec nB nA); [congruence|]. exact HB. }
  intros B m2 B1 B2 H2. cbn [wp]. apply HQ; auto.
Qed.

(** The source is separate from the target *)
Definition apart m (r src : rkm) : Prop := mblk (rk_A src) < next m /\ mblk (rk_B src) < next m /\ ~ In (mblk (rk_A src)) (rbs r) /\ ~ In (mblk (rk_B src)) (rbs r).

Lemma wp_merge (colmerge : bool) src trg m (D E : nat -> nat -> K) (Q : rkm -> mem K -> Prop) : rkown m trg -> rkrep m trg D -> rkrep m src E -> apart m trg src ->
  let ra := mrows (rk_A trg) in let ca := mrows (rk_B trg) in let rs := mrows (rk_A src) in let cs := mrows (rk_B src) in
  (if colmerge then ca = cs /\ dom ca (Nat.min ra (rk_k trg) + Nat.min rs (rk_k src)) else ra = rs /\ dom ra (Nat.min ca (rk_k trg) + Nat.min cs (rk_k src))) ->
  (forall r' m', (if colmerge then merge_post m trg (ra + rs) ca (below ra D E) r' m' else merge_post m trg ra (ca + cs) (aside ca D E) r' m') -> Q r' m') ->
  wp TT TT (merge_rkmatrix O svd rank colmerge src trg) m Q.
Proof.
  intros HO (f & g & Hf & Hg & Ca & Cb & HD) (fs & gs & Hfs & Hgs & Cas & Cbs & HE) (B1 & B2 & N1 & N2) ra ca rs cs Hd HQ.
  pose proof (rst_start _ _ _ _ HO Hf Hg) as S0. unfold merge_rkmatrix. fold ra ca rs cs.
  assert (Xf : source m (rbs trg) [full (rk_A trg) f; full (rk_B trg) g] (rk_A trg) f) by (left; exists 0; reflexivity).
  assert (Xg : source m (rbs trg) [full (rk_A trg) f; full (rk_B trg) g] (rk_B trg) g) by (left; exists 1; reflexivity).
  assert (Xfs : source m (rbs trg) [full (rk_A trg) f; full (rk_B trg) g] (rk_A src) fs) by (right; auto).
  assert (Xgs : source m (rbs trg) [full (rk_A trg) f; full (rk_B trg) g] (rk_B src) gs) by (right; auto).
  destruct colmerge; destruct Hd as [He Hd].
  - apply wp_bind, wp_assert; [apply Nat.eqb_eq; symmetry; exact He|]. apply wp_bind.
    eapply s_merge_svd; [exact S0|exact Xg|exact Xf|exact Xgs|exact Xfs|reflexivity|exact Cb|symmetry; exact He|exact Cbs|exact Ca|exact Cas|exact Hd|]. fold ra ca rs cs. cbv zeta.
    intros a1 tau1 F1 t1 a2 tau2 F2 t2 c u vt sigma U s V m1 HT Hs Hgood Ra1 Ka1 Et1 Ra2 Ka2 Et2 Ru Cu Rv Cv Es S1. cbn iota beta.
    apply wp_bind. eapply (s_rank good chosen rank Hrank 0); [exact S1|reflexivity|rewrite Es; exact Hgood|]. intros k Hk HCh. rewrite Es in Hk, HCh.
    apply wp_bind. eapply (s_resize_rk 8 9); [exact S1|reflexivity|reflexivity|lia|]. cbn [setn]. intros r' m2 R1 R2 C1 C2 Rk S2.
    apply (st_perm _ _ _ _ [evec sigma s; full vt V; full u U; unk c; evec tau2 t2; full a2 F2; evec tau1 t1; full a1 F1; unk (rk_B r'); unk (rk_A r')]) in S2.
    2: { do 8 apply perm_skip. apply perm_swap. }
    apply wp_bind. eapply (s_merge_fin ca k) with (k := Nat.min ca (Nat.min ra (rk_k trg) + Nat.min rs (rk_k src))); [exact S2|reflexivity|reflexivity|rewrite Et1, Ra1, Ka1; reflexivity|rewrite Et2, Ra2, Ka2; reflexivity|exact Ru|exact Cu|exact Rv|rewrite Cv, Ra1, Ka1, Ra2, Ka2; reflexivity|exact Es|exact Hk|lia|exact C2|rewrite Ra1, Ra2; exact R1|exact C1|exact Hs|].
    rewrite Ra1, Ka1, Ra2, Ka2. intros B A m3 HB HA S3. cbn [wp]. apply HQ.
    apply (st_perm _ _ _ _ _ _ (perm_swap _ _ _)) in S3. eapply merge_end; [exact S3|lia|lia|exact R1|exact R2|]. rewrite Rk.
    eapply truncated_ext; [| |apply (truncated_sym L); apply HT; [exact Hk|exact HCh]].
    + intros i j Hi Hj. cbv beta. unfold aside, below. destruct (Nat.ltb_spec i ra); rewrite (lowrank_conj L); [apply HD|apply HE]; unfold ca, rs, cs in *; lia.
    + intros i j Hi Hj. cbv beta. rewrite (lowrank_conj L). eapply lowrank_ext; [| |exact Hi|exact Hj].
      * intros i' q Hi' Hq. apply HA; lia.
      * intros i' q Hi' Hq. apply HB; lia.
  - apply wp_bind, wp_assert; [apply Nat.eqb_eq; symmetry; exact He|]. apply wp_bind. rewrite <- He.
    eapply s_merge_svd; [exact S0|exact Xf|exact Xg|exact Xfs|exact Xgs|reflexivity|exact Ca|symmetry; exact He|exact Cas|exact Cb|exact Cbs|exact Hd|]. fold ra ca rs cs. cbv zeta.
    intros a1 tau1 F1 t1 a2 tau2 F2 t2 c u vt sigma U s V m1 HT Hs Hgood Ra1 Ka1 Et1 Ra2 Ka2 Et2 Ru Cu Rv Cv Es S1. cbn iota beta.
    apply wp_bind. eapply (s_rank good chosen rank Hrank 0); [exact S1|reflexivity|rewrite Es; exact Hgood|]. intros k Hk HCh. rewrite Es in Hk, HCh.
    apply wp_bind. eapply (s_resize_rk 8 9); [exact S1|reflexivity|reflexivity|lia|]. cbn [setn]. intros r' m2 R1 R2 C1 C2 Rk S2.
    apply wp_bind. eapply (s_merge_fin ra k) with (k := Nat.min ra (Nat.min ca (rk_k trg) + Nat.min cs (rk_k src))); [exact S2|reflexivity|reflexivity|rewrite Et1, Ra1, Ka1; reflexivity|rewrite Et2, Ra2, Ka2; reflexivity|exact Ru|exact Cu|exact Rv|rewrite Cv, Ra1, Ka1, Ra2, Ka2; reflexivity|exact Es|exact Hk|lia|exact C1|rewrite Ra1, Ra2; exact R2|exact C2|exact Hs|].
    rewrite Ra1, Ka1, Ra2, Ka2. intros A B m3 HA HB S3. cbn [wp]. apply HQ.
    eapply merge_end; [exact S3|lia|lia|exact R1|exact R2|]. rewrite Rk.
    eapply truncated_ext; [| |apply HT; [exact Hk|exact HCh]].
    + intros i j Hi Hj. cbv beta. unfold aside. destruct (Nat.ltb_spec j ca); [apply HD|apply HE]; unfold ra, rs, cs in *; lia.
    + intros i j Hi Hj. cbv beta. eapply lowrank_ext; [| |exact Hi|exact Hj].
      * intros i' q Hi' Hq. apply HA; lia.
      * intros i' q Hi' Hq. apply HB; lia.
Qed.
End P.
