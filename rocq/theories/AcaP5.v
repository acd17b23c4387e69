(** * Cross approximation with partial pivoting: the loop *)
From Coq Require Import Arith Lia List Bool Ring.
From Verif Require Import Fld Prog Arr View Spec Loop FactorSpec FactorP Avector Amatrix AvectorP AmatrixP AmatrixP2 Rkmatrix RkSpec RkP Qr QrP2 Aca AcaSpec AcaP AcaP2 AcaP3 AcaP4.
Import ListNotations.

Section AcaP5.
Context {K : fops} (L : field_laws K) (gt : K -> K -> bool) (GL : gt_laws gt) (sq : K -> K).
Notation RL := (fl_ring K L).
Add Ring KringA5 : (rl_ring K (fl_ring K L)).
Implicit Types (m : mem K) (R W : addr -> Prop) (A B : mat) (C D F G : nat -> nat -> K).
Context (E : nat -> nat -> K) (rows cols : nat) (accur : K) (ri ci : nat -> nat).
Notation E' := (fun i j => E (ri i) (ci j)).

Definition pmath (k : nat) (pr pc : nat -> nat) C D : Prop :=
  (forall nu j, nu < k -> j < cols -> gt (abssqr (D j nu)) (abssqr (D nu nu)) = false) /\
  (forall nu i, S nu < k -> nu < i < rows -> gt (abssqr (C i nu)) (abssqr (C (S nu) nu)) = false) /\
  (forall nu i, nu < k -> i < nu -> C i nu = f0) /\ (forall nu j, nu < k -> j < nu -> D j nu = f0) /\
  ((forall nu, nu < k -> D nu nu <> f0) ->
     forall i j, i < rows -> j < cols -> i < k \/ j < k ->
       E' (pperm pr k i) (pperm pc k j) = sum k (fun nu => C i nu * D j nu)%F).

Definition newB k (pr pc : nat -> nat) C D ik (j : nat) : K :=
  if j <? k then f0 else (E' (pperm pr k ik) (pperm pc k j) - sum k (fun mu => C ik mu * D j mu))%F.
Definition newA k (pr pc : nat -> nat) C D jk (i : nat) : K :=
  if i <? k then f0 else (E' (pperm pr k i) (pperm pc k jk) - sum k (fun mu => D jk mu * C i mu))%F.

Lemma gt0 (x : K) : gt (abssqr f0) (abssqr x) = false.
Proof. replace (abssqr (f0 : K)) with (f0 : K) by (unfold abssqr; ring). apply (gl_pos gt GL). Qed.

Lemma pmath_step k pr pc C D ik jk pr' pc' :
  pmath k pr pc C D -> k <= ik < rows -> k <= jk < cols ->
  (forall j, k <= j < cols -> gt (abssqr (newB k pr pc C D ik j)) (abssqr (newB k pr pc C D ik jk)) = false) ->
  (0 < k -> forall i, k <= i < rows -> gt (abssqr (C i (k - 1))) (abssqr (C ik (k - 1))) = false) ->
  (forall x, pperm pr' (S k) x = pperm pr k (swapc k ik x)) -> (forall x, pperm pc' (S k) x = pperm pc k (swapc k jk x)) ->
  pmath (S k) pr' pc'
    (fun x y => setcol C k (fun i => (newA k pr pc C D jk i * (f1 / newB k pr pc C D ik jk))%F) (swapc k ik x) y)
    (fun x y => setcol D k (newB k pr pc C D ik) (swapc k jk x) y).
Proof.
  intros (P1 & P2 & P3 & P4 & P5) Hi Hj Hmb Hma Er Ec. unfold setcol. split; [|split; [|split; [|split]]].
  - intros nu j Hnu Hj'. destruct (Nat.eqb_spec nu k) as [->|N].
    + rewrite swapc_k. pose proof (swapc_lt k jk cols j ltac:(lia) ltac:(lia) Hj') as Hs.
      destruct (Nat.lt_ge_cases (swapc k jk j) k) as [Hl|Hl]; [|apply Hmb; lia].
      unfold newB at 1. destruct (Nat.ltb_spec (swapc k jk j) k); [|lia]. apply gt0.
    + rewrite (swapc_low k jk nu) by lia. apply P1; [lia|]. apply swapc_lt; lia.
  - intros nu i Hnu Hi'. destruct (Nat.eqb_spec nu k) as [->|N]; [lia|].
    destruct (Nat.eq_dec (S nu) k) as [Ek|Nk].
    + rewrite Ek, swapc_k. replace nu with (k - 1) by lia. apply Hma; [lia|].
      pose proof (swapc_lt k ik rows i ltac:(lia) ltac:(lia) ltac:(lia)). pose proof (swapc_ge k ik k i ltac:(lia) ltac:(lia) ltac:(lia)). lia.
    + rewrite (swapc_low k ik (S nu)) by lia. apply P2; [lia|].
      pose proof (swapc_lt k ik rows i ltac:(lia) ltac:(lia) ltac:(lia)). pose proof (swapc_ge k ik (S nu) i ltac:(lia) ltac:(lia) ltac:(lia)). lia.
  - intros nu i Hnu Hl. rewrite swapc_low by lia. destruct (Nat.eqb_spec nu k) as [->|N]; [|apply P3; lia].
    unfold newA at 1. destruct (Nat.ltb_spec i k); [ring|lia].
  - intros nu j Hnu Hl. rewrite swapc_low by lia. destruct (Nat.eqb_spec nu k) as [->|N]; [|apply P4; lia].
    unfold newB. destruct (Nat.ltb_spec j k); [reflexivity|lia].
  - intros Hp i0 j0 Hi0 Hj0 Hor.
    assert (Hp0 : forall nu, nu < k -> D nu nu <> f0).
    { intros nu Hnu. specialize (Hp nu ltac:(lia)). cbv beta in Hp. rewrite swapc_low in Hp by lia.
      destruct (Nat.eqb_spec nu k); [lia|exact Hp]. }
    assert (Hpk : newB k pr pc C D ik jk <> f0).
    { specialize (Hp k ltac:(lia)). cbv beta in Hp. rewrite swapc_k, Nat.eqb_refl in Hp. exact Hp. }
    specialize (P5 Hp0). rewrite Er, Ec.
    pose proof (swapc_lt k ik rows i0 ltac:(lia) ltac:(lia) ltac:(lia)) as Hi1.
    pose proof (swapc_lt k jk cols j0 ltac:(lia) ltac:(lia) ltac:(lia)) as Hj1.
    assert (Hor' : (swapc k ik i0 < k \/ swapc k ik i0 = ik) \/ (swapc k jk j0 < k \/ swapc k jk j0 = jk)).
    { destruct Hor as [H|H]; [left|right].
      - destruct (Nat.eq_dec i0 k) as [->|]; [right; apply swapc_k|left; rewrite swapc_low; lia].
      - destruct (Nat.eq_dec j0 k) as [->|]; [right; apply swapc_k|left; rewrite swapc_low; lia]. }
    revert Hi1 Hj1 Hor'. generalize (swapc k ik i0) (swapc k jk j0). clear i0 j0 Hi0 Hj0 Hor. intros i j Hi1 Hj1 Hor.
    cbn [sum]. rewrite Nat.eqb_refl.
    rewrite (sum_ext k _ (fun nu => C i nu * D j nu)%F) by (intros nu Hnu; destruct (Nat.eqb_spec nu k); [lia|reflexivity]).
    assert (RB : forall j, j < cols -> newB k pr pc C D ik j = (E' (pperm pr k ik) (pperm pc k j) - sum k (fun mu => C ik mu * D j mu))%F).
    { intros j' Hj'. unfold newB. destruct (Nat.ltb_spec j' k); [|reflexivity]. rewrite (P5 ik j') by (auto; lia). ring. }
    assert (RA : forall i, i < rows -> newA k pr pc C D jk i = (E' (pperm pr k i) (pperm pc k jk) - sum k (fun mu => C i mu * D jk mu))%F).
    { intros i' Hi'. unfold newA. destruct (Nat.ltb_spec i' k).
      - rewrite (P5 i' jk) by (auto; lia). ring.
      - f_equal. apply sum_ext. intros mu _. ring. }
    assert (Hinv : (newB k pr pc C D ik jk * (f1 / newB k pr pc C D ik jk) = f1)%F).
    { transitivity (newB k pr pc C D ik jk * (f1 * (f1 / newB k pr pc C D ik jk)))%F; [|apply (inv_mul L); exact Hpk].
      generalize (f1 / newB k pr pc C D ik jk)%F. intros x. ring. }
    set (al := (f1 / newB k pr pc C D ik jk)%F) in *. clearbody al.
    destruct Hor as [[H|H]|[H|H]].
    + rewrite (P5 i j) by (auto; lia). unfold newA. destruct (Nat.ltb_spec i k); [ring|lia].
    + subst i. rewrite RA by lia. rewrite <- (RB jk) by lia.
      transitivity (sum k (fun nu => C ik nu * D j nu) + newB k pr pc C D ik j * (newB k pr pc C D ik jk * al))%F; [|ring].
      rewrite Hinv, (RB j) by lia. ring.
    + rewrite (P5 i j) by (auto; lia). unfold newB at 1. destruct (Nat.ltb_spec j k); [ring|lia].
    + subst j. transitivity (sum k (fun nu => C i nu * D jk nu) + newA k pr pc C D jk i * (newB k pr pc C D ik jk * al))%F; [|ring].
      rewrite Hinv, (RA i) by lia. ring.
Qed.

Context (m0 : mem K) (bA bB : nat).
Definition pblk (a : addr) : Prop := fst a = bA \/ fst a = bB \/ next m0 <= fst a.
Definition pst (k : nat) A B (p : apiv) (pr pc : nat -> nat) C D m : Prop :=
  (mld A = mrows A /\ mld B = mrows B /\ mown A = true /\ mown B = true /\ mblk A <> mblk B /\ mblk A < next m /\ mblk B < next m) /\
  (pblk (mblk A, 0) /\ pblk (mblk B, 0) /\ keeps pblk m0 m) /\
  (mval m A C /\ mval m B D) /\
  (0 < k -> mrows A = rows /\ mcols A = k /\ mrows B = cols /\ mcols B = k) /\
  apok rows cols rows cols k pr pc ri ci p /\ pmath k pr pc C D.

Lemma pmath_ext k pr pc C D C' D' : k <= rows -> k <= cols -> pmath k pr pc C D ->
  (forall i nu, i < rows -> nu < k -> C' i nu = C i nu) -> (forall j nu, j < cols -> nu < k -> D' j nu = D j nu) ->
  pmath k pr pc C' D'.
Proof.
  intros Kr Kc (P1 & P2 & P3 & P4 & P5) HC HD. split; [|split; [|split; [|split]]].
  - intros nu j Hnu Hj. rewrite !HD by lia. apply P1; assumption.
  - intros nu i Hnu Hi. rewrite !HC by lia. apply P2; assumption.
  - intros nu i Hnu Hi. rewrite !HC by lia. apply P3; assumption.
  - intros nu i Hnu Hi. rewrite !HD by lia. apply P4; assumption.
  - intros Hp i j Hi Hj Ho. rewrite P5; auto.
    + apply sum_ext. intros nu Hnu. rewrite HC, HD by lia. reflexivity.
    + intros nu Hnu. rewrite <- HD by lia. apply Hp. exact Hnu.
Qed.

Lemma wp_partialaca_step k A B p st pr pc C D m (Q : mat * mat * apiv * K * K -> mem K -> Prop) :
  pst k A B p pr pc C D m -> k < rows -> k < cols ->
  (forall A' B' p' pr' pc' C' D' s e m', pst (S k) A' B' p' pr' pc' C' D' m' -> Q (A', B', p', s, e) m') ->
  wp TT TT (partialaca_step gt sq E rows cols A B k p st) m Q.
Proof.
  intros ((S1 & S2 & S3 & S4 & S5 & S6 & S7) & (B1 & B2 & KP) & (HC & HD) & HS & HP & HM) Hkr Hkc HQ.
  unfold partialaca_step.
  assert (Nx : next m0 <= next m) by apply KP.
  apply wp_bind. eapply wp_resizecopy_amatrix; [exact HC|exact S3|exact S6|intros; exact I|exact S1|].
  intros A1 m1 A1r A1c A1l A1o A1b HC1 K1. assert (N1 : next m <= next m1) by apply K1.
  assert (HD1 : mval m1 B D).
  { eapply mval_keeps; [exact HD|exact K1|]. intros x Hx Hy. apply inm_blk in Hx. lia. }
  apply wp_bind. eapply wp_resizecopy_amatrix; [exact HD1|exact S4|lia|intros; exact I|exact S2|].
  intros B2' m2 B2r B2c B2l B2o B2b HD2 K2. assert (N2 : next m1 <= next m2) by apply K2.
  assert (bA1 : mblk A1 = mblk A \/ mblk A1 = next m) by (destruct A1b as [->|]; auto).
  assert (bB2 : mblk B2' = mblk B \/ mblk B2' = next m1) by (destruct B2b as [->|]; auto).
  assert (NA1 : mblk A1 < next m1).
  { destruct A1b as [->|Eb]; [lia|]. rewrite Eb. clear - HC1 K1 Eb Hkr A1r A1c.
    specialize (HC1 0 0 ltac:(lia) ltac:(lia)). destruct (Nat.lt_ge_cases (next m) (next m1)) as [H|H]; [exact H|].
    exfalso. rewrite get_fresh in HC1; [discriminate|]. cbn. lia. }
  assert (HC2 : mval m2 A1 (fun i j => if (i <? mrows A) && (j <? mcols A) then C i j else f0)).
  { eapply mval_keeps; [exact HC1|exact K2|]. intros x Hx Hy. apply inm_blk in Hx. lia. }
  assert (NB2 : mblk B2' < next m2).
  { destruct B2b as [->|Eb]; [lia|]. rewrite Eb. clear - HD2 K2 Eb Hkc B2r B2c.
    specialize (HD2 0 0 ltac:(lia) ltac:(lia)). destruct (Nat.lt_ge_cases (next m1) (next m2)) as [H|H]; [exact H|].
    exfalso. rewrite get_fresh in HD2; [discriminate|]. cbn. lia. }
  assert (Nab : mblk A1 <> mblk B2').
  { destruct bA1 as [Ea|Ea], bB2 as [Eb|Eb]; rewrite Ea, Eb; lia. }
  assert (KP2 : keeps pblk m0 m2).
  { eapply keeps_trans; [exact KP|]. eapply keeps_trans; eapply keeps_mono; [|exact K1| |exact K2]; cbv beta; unfold pblk in *; cbn [fst] in *; intros x Hx; lia. }
  assert (BA1 : pblk (mblk A1, 0)) by (unfold pblk in *; cbn [fst] in *; lia).
  assert (BB2 : pblk (mblk B2', 0)) by (unfold pblk in *; cbn [fst] in *; lia).
  assert (NA2 : mblk A1 < next m2) by lia.
  set (C1 := fun i j => if (i <? mrows A) && (j <? mcols A) then C i j else (f0 : K)) in *.
  set (D1 := fun i j => if (i <? mrows B) && (j <? mcols B) then D i j else (f0 : K)) in *.
  assert (HM1 : pmath k pr pc C1 D1).
  { eapply pmath_ext; [lia|lia|exact HM| |]; intros i nu Hi Hnu; destruct (HS ltac:(lia)) as (? & ? & ? & ?); unfold C1, D1; bsplit; try lia; reflexivity. }
  clearbody C1 D1. clear K1 K2 HC HD HC1 HD1 HS HM N1 N2 NA1 A1b B2b bA1 bB2 B1 B2 S1 S2 S3 S4 S5 S6 S7.
  rename A1 into A1, B2' into B1. 
  assert (WA : mwf A1) by (unfold mwf; lia). assert (WB : mwf B1) by (unfold mwf; lia).
  assert (dAB : disj (inm A1) (inm B1)). { intros x Hx Hy. apply inm_blk in Hx, Hy. congruence. }
  assert (dBA : disj (inm B1) (inm A1)) by (apply disj_sym; exact dAB).
  assert (TA : wrok TT (inm A1)) by (intros x _; exact I). assert (TB : wrok TT (inm B1)) by (intros x _; exact I).
  assert (RA : rdok TT TT (inm A1)) by (intros x _; left; exact I). assert (RB : rdok TT TT (inm B1)) by (intros x _; left; exact I).
  assert (PA : forall x, inm A1 x -> pblk x). { intros x Hx. apply inm_blk in Hx. unfold pblk in *. cbn [fst] in *. lia. }
  assert (PB : forall x, inm B1 x -> pblk x). { intros x Hx. apply inm_blk in Hx. unfold pblk in *. cbn [fst] in *. lia. }
  assert (stepA : forall m3 m4, keeps pblk m0 m3 -> keeps (inm A1) m3 m4 -> keeps pblk m0 m4).
  { intros m3 m4 H3 H4. eapply keeps_trans; [exact H3|]. eapply keeps_mono; [exact PA|exact H4]. }
  assert (stepB : forall m3 m4, keeps pblk m0 m3 -> keeps (inm B1) m3 m4 -> keeps pblk m0 m4).
  { intros m3 m4 H3 H4. eapply keeps_trans; [exact H3|]. eapply keeps_mono; [exact PB|exact H4]. }
  apply wp_bind. eapply wp_init_sub_amatrix; [lia|lia|].
  apply wp_bind. eapply wp_init_sub_amatrix; [lia|lia|].
  rename m2 into mm. rename HC2 into HC2, HD2 into HD2.
  assert (Nx2 : next m0 <= next mm) by apply KP2.
  (* the row *)
  apply wp_bind.
  enough (G : forall ik, k <= ik < rows -> (0 < k -> forall i, k <= i < rows -> gt (abssqr (C1 i (k - 1))) (abssqr (C1 ik (k - 1))) = false) ->
    wp TT TT (aca_entry E (ap_rpivot p) ik (ap_cpivot p) k true (subm B1 k (cols - k) k 1) ;;;
       conjugate_amatrix (subm B1 k (cols - k) k 1) ;;;
       aca_residual B1 cols cols A1 rows ik k ;;;
       j_k <- aca_colmax gt B1 cols cols k k ;;
       aca_entry E (ap_rpivot p) k (ap_cpivot p) j_k false (subm A1 k (rows - k) k 1) ;;;
       aca_residual A1 rows rows B1 cols j_k k ;;;
       v <- pload (pa B1 cols j_k k) ;;
       let alpha := (f1 / v)%F in
       for_ 0 rows (fun i => y <- pload (pa A1 rows i k) ;; pstore (pa A1 rows i k) (y * alpha)%F) ;;;
       rpivot <- lift (aswap (ap_rpivot p) k ik) ;;
       rperm <- lift (aset (ap_rperm p) k ik) ;;
       cpivot <- lift (aswap (ap_cpivot p) k j_k) ;;
       cperm <- lift (aset (ap_cperm p) k j_k) ;;
       for_ 0 (k + 1) (fun i => aca_swapat (pa A1 rows) k ik i) ;;;
       for_ 0 (k + 1) (fun j => aca_swapat (pa B1 cols) k j_k j) ;;;
       start <- (if k + 1 =? 1 then
                   n1 <- aca_colnorm A1 rows rows 0 0 ;; n2 <- aca_colnorm B1 cols cols 0 0 ;; Ret (f1 / sq (n1 * n2))%F
                 else Ret st) ;;
       e1 <- aca_colnorm A1 rows rows k k ;;
       e2 <- aca_colnorm B1 cols cols k k ;;
       Ret (A1, B1, Apiv rperm cperm rpivot cpivot, start, (sq (e1 * e2) * start)%F)) mm Q).
  { destruct (Nat.ltb_spec 0 k) as [Hk0|Hk0].
    - eapply (wp_aca_colmax gt GL); [exact A1l|exact A1r|exact HC2|lia|lia|exact RA|]. intros q Hq Hmx. apply G; auto.
    - cbn [wp]. apply G; [|intros; lia]. replace k with 0 by lia. split; [lia|]. apply Nat.div_lt; lia. }
  intros ik Hik Hmax.
  destruct HP as (P1 & P2 & P3 & P4 & P5 & P6).
  replace (cols - k) with (mrows B1 - k) by lia. replace (rows - k) with (mrows A1 - k) by lia.
  apply wp_bind. eapply wp_aca_entry with (F := D1) (t := true); [exact WB|exact HD2|lia|lia|exact TB|exact P3|exact P4|split; lia|].
  intros m3 HB3 K3. cbv beta iota in HB3.
  apply wp_bind. eapply wp_conj_sub; [exact WB|exact HB3|lia|lia|exact TB|]. intros m4 HB4 K4.
  apply wp_bind. assert (HA4 : mval m4 A1 C1).
  { eapply mval_keeps; [|exact K4|exact dAB]. eapply mval_keeps; [exact HC2|exact K3|exact dAB]. }
  eapply (wp_aca_residual L); [exact B2l|exact A1l|exact B2r|exact WB|exact HB4|exact HA4|exact dAB|lia|lia|lia|lia|exact RA|exact TB|].
  intros m5 HB5 K5.
  assert (HB5' : mval m5 B1 (setcol D1 k (newB k pr pc C1 D1 ik))).
  { eapply mval_ext; [exact HB5|]. intros i j Hi Hj. unfold setcol, newB. bsplit; subst; try reflexivity; try lia.
    rewrite (rl_conj_conj K RL). replace (k + (i - k)) with i by lia. f_equal. apply sum_ext. intros mu Hmu.
    destruct (Nat.eqb_spec mu k); [lia|]. reflexivity. }
  apply wp_bind. eapply (wp_aca_colmax gt GL); [exact B2l|exact B2r|exact HB5'|lia|lia|exact RB|]. intros jk Hjk Hmb.
  assert (HA5 : mval m5 A1 C1) by (eapply mval_keeps; [exact HA4|exact K5|exact dAB]).
  apply wp_bind. eapply wp_aca_entry with (F := C1) (t := false); [exact WA|exact HA5|lia|lia|exact TA|exact P3|exact P4|split; lia|].
  intros m6 HA6 K6. cbv beta iota in HA6.
  assert (HB6 : mval m6 B1 (setcol D1 k (newB k pr pc C1 D1 ik))) by (eapply mval_keeps; [exact HB5'|exact K6|exact dBA]).
  apply wp_bind. eapply (wp_aca_residual L); [exact A1l|exact B2l|exact A1r|exact WA|exact HA6|exact HB6|exact dBA|lia|lia|lia|lia|exact RB|exact TA|].
  intros m7 HA7 K7.
  assert (HA7' : mval m7 A1 (setcol C1 k (newA k pr pc C1 D1 jk))).
  { eapply mval_ext; [exact HA7|]. intros i j Hi Hj. unfold setcol, newA. bsplit; subst; try reflexivity; try lia.
    replace (k + (i - k)) with i by lia. f_equal. apply sum_ext. intros mu Hmu.
    destruct (Nat.eqb_spec mu k); [lia|]. reflexivity. }
  assert (HB7 : mval m7 B1 (setcol D1 k (newB k pr pc C1 D1 ik))) by (eapply mval_keeps; [exact HB6|exact K7|exact dBA]).
  rewrite (pa_ma A1 rows A1l), (pa_ma B1 cols B2l).
  apply wp_bind. eapply wp_mload; [exact HB7|lia|lia|exact RB|].
  assert (Evk : setcol D1 k (newB k pr pc C1 D1 ik) jk k = newB k pr pc C1 D1 ik jk) by (unfold setcol; rewrite Nat.eqb_refl; reflexivity).
  rewrite Evk. set (al := (f1 / newB k pr pc C1 D1 ik jk)%F).
  cbv zeta. apply wp_bind.
  eapply wp_mcol with (A := A1) (j := k) (g := fun i => (newA k pr pc C1 D1 jk i * al)%F); [exact WA|exact HA7'|lia|right; lia| |].
  { intros i m8 Hi HA8 K8. apply wp_bind. eapply wp_mload; [exact HA8|lia|lia|exact RA|].
    eapply wp_mstore; [eapply mval_alloc; exact HA8|lia|lia|exact TA|].
    apply wrote_upd; [eapply malloc_get; [eapply mval_alloc; exact HA8|lia|lia]|].
    unfold setcol. bsplit; try lia; reflexivity. }
  intros m8 HA8 K8.
  assert (HA8' : mval m8 A1 (setcol C1 k (fun i => (newA k pr pc C1 D1 jk i * al)%F))).
  { eapply mval_ext; [exact HA8|]. intros i j Hi Hj. unfold setcol. bsplit; subst; try reflexivity; lia. }
  assert (HB8 : mval m8 B1 (setcol D1 k (newB k pr pc C1 D1 ik))) by (eapply mval_keeps; [exact HB7|exact K8|exact dBA]).
  apply wp_bind, wp_lift. eapply rok_aswap; [exact P3|lia|lia|]. intros rp Hrp.
  apply wp_bind, wp_lift. eapply rok_aset_prt; [exact P1|lia|]. intros rm Hrm.
  apply wp_bind, wp_lift. eapply rok_aswap; [exact P4|lia|lia|]. intros cp Hcp.
  apply wp_bind, wp_lift. eapply rok_aset_prt; [exact P2|lia|]. intros cm Hcm.
  rewrite <- (pa_ma A1 rows A1l), <- (pa_ma B1 cols B2l).
  apply wp_bind. eapply wp_aca_swaploop; [exact A1l|exact WA|exact HA8'|lia|lia|lia|exact TA|]. intros m9 HA9 K9.
  assert (HB9 : mval m9 B1 (setcol D1 k (newB k pr pc C1 D1 ik))) by (eapply mval_keeps; [exact HB8|exact K9|exact dBA]).
  apply wp_bind. eapply wp_aca_swaploop; [exact B2l|exact WB|exact HB9|lia|lia|lia|exact TB|]. intros m10 HB10 K10.
  assert (HA10 : mval m10 A1 (fun x y => setcol C1 k (fun i => (newA k pr pc C1 D1 jk i * al)%F) (swapc k ik x) y))
    by (eapply mval_keeps; [exact HA9|exact K10|exact dAB]).
  assert (KPn : keeps pblk m0 m10).
  { eapply stepB; [|exact K10]. eapply stepA; [|exact K9]. eapply stepA; [|exact K8]. eapply stepA; [|exact K7]. eapply stepA; [|exact K6].
    eapply stepB; [|exact K5]. eapply stepB; [|exact K4]. eapply stepB; [|exact K3]. exact KP2. }
  assert (Nxn : next mm <= next m10).
  { destruct K3, K4, K5, K6, K7, K8, K9, K10. lia. }
  assert (Ep : forall p0 x0 x, pperm (afupd p0 k x0) (S k) x = pperm p0 k (swapc k x0 x)).
  { intros p0 x0 x. cbn [pperm]. unfold afupd at 2. rewrite Nat.eqb_refl. apply pperm_ext.
    intros i' Hi'. unfold afupd. bsplit; try lia; reflexivity. }
  assert (HPn : apok rows cols rows cols (S k) (afupd pr k ik) (afupd pc k jk) ri ci (Apiv rm cm rp cp)).
  { unfold apok. cbn [ap_rpivot ap_cpivot ap_rperm ap_cperm]. split; [|split; [|split; [|split; [|split]]]].
    - eapply aprt_ext; [exact Hrm| |reflexivity]. cbv beta. intros; lia.
    - eapply aprt_ext; [exact Hcm| |reflexivity]. cbv beta. intros; lia.
    - eapply aval_ext; [exact Hrp|]. intros x _. cbv beta. rewrite Ep. reflexivity.
    - eapply aval_ext; [exact Hcp|]. intros x _. cbv beta. rewrite Ep. reflexivity.
    - intros x Hx. unfold afupd. bsplit; subst; try lia. apply P5; lia.
    - intros x Hx. unfold afupd. bsplit; subst; try lia. apply P6; lia. }
  assert (HMn : pmath (S k) (afupd pr k ik) (afupd pc k jk)
     (fun x y => setcol C1 k (fun i => (newA k pr pc C1 D1 jk i * al)%F) (swapc k ik x) y)
     (fun x y => setcol D1 k (newB k pr pc C1 D1 ik) (swapc k jk x) y)).
  { apply pmath_step; auto; try lia. intros j Hj. specialize (Hmb j ltac:(lia)). unfold setcol in Hmb. rewrite Nat.eqb_refl in Hmb. exact Hmb. }
  assert (HQ' : forall s e, Q (A1, B1, Apiv rm cm rp cp, s, e) m10).
  { intros s e. eapply HQ. unfold pst. split; [|split; [|split; [|split; [|split]]]]; [| | | |exact HPn|exact HMn].
    - repeat split; auto; lia.
    - repeat split; auto. all: apply KPn.
    - split; [exact HA10|exact HB10].
    - intros _. lia. }
  apply wp_bind. destruct (k + 1 =? 1) eqn:Ek1.
  - apply Nat.eqb_eq in Ek1.
    apply wp_bind. eapply wp_aca_colnorm; [exact A1l|exact A1r|exact HA10|lia|lia|exact RA|]. intros n1.
    apply wp_bind. eapply wp_aca_colnorm; [exact B2l|exact B2r|exact HB10|lia|lia|exact RB|]. intros n2. cbn [wp].
    apply wp_bind. eapply wp_aca_colnorm; [exact A1l|exact A1r|exact HA10|lia|lia|exact RA|]. intros e1.
    apply wp_bind. eapply wp_aca_colnorm; [exact B2l|exact B2r|exact HB10|lia|lia|exact RB|]. intros e2. cbn [wp]. apply HQ'.
  - cbn [wp].
    apply wp_bind. eapply wp_aca_colnorm; [exact A1l|exact A1r|exact HA10|lia|lia|exact RA|]. intros e1.
    apply wp_bind. eapply wp_aca_colnorm; [exact B2l|exact B2r|exact HB10|lia|lia|exact RB|]. intros e2. cbn [wp]. apply HQ'.
Qed.

Lemma wp_partialaca_loop cnt : forall k A B p st er pr pc C D m (Q : mat * mat * nat * apiv -> mem K -> Prop),
  pst k A B p pr pc C D m -> k + cnt = Nat.min rows cols ->
  (forall A' B' k' p' pr' pc' C' D' m', k <= k' <= Nat.min rows cols -> (0 < cnt -> gt er accur = true -> k < k') ->
     pst k' A' B' p' pr' pc' C' D' m' -> (k' = k -> A' = A /\ B' = B) -> Q (A', B', k', p') m') ->
  wp TT TT (partialaca_loop gt sq E rows cols accur cnt k A B p st er) m Q.
Proof.
  induction cnt as [|cnt IH]; intros k A B p st er pr pc C D m Q HS Hc HQ; cbn [partialaca_loop].
  - cbn [wp]. eapply HQ; [| |exact HS|auto]; [lia|lia].
  - destruct (gt er accur) eqn:Eg; cbn [negb].
    2:{ cbn [wp]. eapply HQ; [| |exact HS|auto]; [lia|congruence]. }
    apply wp_bind. eapply wp_partialaca_step; [exact HS|lia|lia|].
    intros A' B' p' pr' pc' C' D' s e m' HS'. replace (k + 1) with (S k) by lia.
    eapply IH; [exact HS'|lia|]. intros A2 B2 k2 p2 pr2 pc2 C2 D2 m2 Hk2 _ HS2 _.
    eapply HQ; [| |exact HS2|]; [lia|lia|lia].
Qed.
End AcaP5.
