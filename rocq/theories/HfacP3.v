(** * Triangular H-matrices applied to H-matrices: the recursion *)
From Coq Require Import Arith Lia List Bool Permutation Ring.
From Verif Require Import Fld Ord Prog Arr View Loop Line Spec FactorSpec Cluster Block BlockP Avector Amatrix AvectorP AmatrixP AmatrixP2 Rkmatrix RkSpec RkP Factor Chol CholSpec Qr QrSpec
  CbP CbmSpec CbmP CopSpec OrthoP SepP SepP2 Htrunc HtSpec HtP HtP2 HtP3 HtP4 Hmatrix HmSpec HmP HmP3 HmP4 HlibSpec Harith HaSpec HaP HaP2 HaP3 HaP4 HaddSpec HmvP Hadd MgP MgP2 MgP3 HaddP HaddP2 HaddP3 HaddP4 HaddP5 HaddP6 Hmul HmulP HmulP2 HmulP3 HmulP4 HmulP5 Hfac HfacSpec HfacP HfacP2.
Import ListNotations.

Section P.
Context {K : fops} {G : ofops} (L : field_laws K) (O : qops K) (H : qlaws O) (HZ : exact_zero O).
Context (orth : Prop) (good : nat -> (nat -> K) -> Prop) (chosen : nat -> (nat -> K) -> nat -> Prop) (dom : nat -> nat -> Prop).
Context (svd : mat -> vec -> mat -> mat -> prog K unit) (rank : vec -> prog K nat) (Hsvd : svd_ok orth good dom svd) (Hrank : rank_ok good chosen rank).
Context (Hdom : forall r c, dom r c) (Hless : forall n s k, chosen n s k -> forall l, k <= l < n -> s l = f0).
Notation RL := (fl_ring K L).
Add Ring KringHfac3 : (rl_ring K (fl_ring K L)).
Local Notation hmx := (hmatrix G).
Implicit Types (m : mem K) (h s x y z a : hmx) (l : list hmx) (D E U V W X Y Z : nat -> nat -> K) (r : rkm) (rc cc : cptr G).

Lemma wp_trileaf (solve lower aunit t xt : bool) a f D X m (Q : unit -> mem K -> Prop) :
  htri lower aunit m a D -> mwf f -> mval m f (tr xt X) -> Harith.trows xt f = hrows a -> disj (inh a) (inm f) ->
  (solve = true -> aunit = true \/ (forall i, i < hrows a -> D i i <> f0)) ->
  (forall E m', tpost solve lower aunit t (hrows a) (Harith.tcols xt f) D X E -> mval m' f (tr xt E) -> keeps (inm f) m m' -> Q tt m') ->
  wp TT TT (if solve then triangularinvmul_hmatrix_amatrix lower aunit t a xt f else triangularmul_hmatrix_amatrix lower aunit t a xt f) m Q.
Proof.
  intros HT HW HV ES HD Hnz HQ. destruct solve.
  - eapply (wp_trisolve RL (mrhs xt) (mlaws L xt) lower aunit t a _ _ f D X); try assumption; try (intros ? _; left; exact Logic.I); try (intros ? _; exact Logic.I).
    apply Hnz; reflexivity.
  - eapply (wp_trieval RL (mrhs xt) (mlaws L xt) lower aunit t a _ _ f D X); try assumption; try (intros ? _; left; exact Logic.I); try (intros ? _; exact Logic.I).
    intros m' Hx' Hk'. eapply HQ; [|exact Hx'|exact Hk']. intros p c Hp Hc. reflexivity.
Qed.

(** A low-rank matrix is changed by changing one factor. *)
Lemma tpost_lr (solve lower aunit t : bool) n w k D Y Z Y' X E : tpost solve lower aunit t n k D Y Y' ->
  (forall p c, p < n -> c < w -> X p c = lowrank k Y Z p c) -> (forall p c, p < n -> c < w -> E p c = lowrank k Y' Z p c) -> tpost solve lower aunit t n w D X E.
Proof.
  intros HY HX HE p c Hp Hc. set (U := tr t (tripart lower aunit D)) in *.
  assert (Hs : forall V, sum n (fun q => U p q * lowrank k V Z q c)%F = sum k (fun i => sum n (fun q => U p q * V q i) * fconj (Z c i))%F).
  { intros V. unfold lowrank. rewrite (sum_ext n _ (fun q => sum k (fun i => (U p q * V q i) * fconj (Z c i))%F)).
    - rewrite (sum_swap RL). apply sum_ext. intros i _. apply (sum_mul_r RL).
    - intros q _. rewrite <- (sum_mul_l RL). apply sum_ext. intros i _. ring. }
  destruct solve.
  - rewrite (HX p c Hp Hc). rewrite (sum_ext n _ (fun q => U p q * lowrank k Y' Z q c)%F) by (intros q Hq; rewrite HE by assumption; reflexivity). rewrite Hs.
    apply sum_ext. intros i Hi. specialize (HY p i Hp Hi). cbv beta iota in HY. fold U in HY. rewrite HY. reflexivity.
  - rewrite (HE p c Hp Hc). rewrite (sum_ext n _ (fun q => U p q * lowrank k Y Z q c)%F) by (intros q Hq; rewrite HX by assumption; reflexivity). rewrite Hs.
    apply sum_ext. intros i Hi. specialize (HY p i Hp Hi). cbv beta iota in HY. fold U in HY. rewrite HY. reflexivity.
Qed.

Lemma wp_tri_h (solve lower aunit t xt : bool) s0 : tri_ok solve lower aunit t xt (tri_h O svd rank solve lower aunit t xt s0) s0.
Proof.
  induction s0 as [s0 IH] using hsize_ind. intros a x m D X Q HLk HT SA PA AL HR HU SX PX EC Dj Hsq Hnz HQ.
  destruct (htri_rc lower aunit m a D HT) as (Erc & Er & Ers).
  assert (Eh : hrows a = csz (trc xt x)) by (unfold hrows; congruence).
  destruct HLk as [rc cc r0 r ds|rc cc f ds|rc cc l0 l rs cs ds HF]; cbn [tri_h hm_f hm_r]; rewrite Erc, cp_eqb_refl, EC, cp_eqb_refl; cbn [passert bind].
  - pose proof HR as HRx. inversion_clear HRx as [? ? ? ? ? V1 V2 V3| |]. pose proof HU as HUx. inversion_clear HUx as [? ? ? ? U1 U2 U3| |].
    destruct V3 as (A & B & HA & HB & K1 & K2 & HAB). destruct U3 as (O1 & O2 & O3 & O4 & O5 & O6 & O7 & O8 & O9 & O10 & O11).
    set (f := if xt then rk_B r else rk_A r). set (Y := if xt then B else A). set (Z := if xt then A else B).
    apply wp_bind. eapply (wp_trileaf solve lower aunit t false a f D Y m).
    + exact HT.
    + unfold f. destruct xt; assumption.
    + unfold f, Y. destruct xt; assumption.
    + unfold f. rewrite Eh. destruct xt; cbn; congruence.
    + intros b Hb Hb'. apply (Dj b Hb). apply hfp_rk. unfold f in Hb'. destruct xt; apply inm_blk in Hb'; [right|left]; exact Hb'.
    + exact Hnz.
    + intros Y' m' HY HV' HK. cbn [tr] in HV'. cbn [wp]. apply (HQ (lowrank (rk_k r) Y' Z)).
      * rewrite Eh in HY. unfold f in HY. replace (Harith.tcols false (if xt then rk_B r else rk_A r)) with (rk_k r) in HY by (destruct xt; cbn; congruence).
        eapply tpost_lr; [exact HY| |reflexivity]. intros p c Hp Hc. unfold Y, Z. destruct xt; cbn [trc tcc hm_rc hm_cc] in Hp, Hc.
        -- rewrite <- (rl_conj_conj K RL (X p c)). change (fconj (X p c)) with (tr true X c p). rewrite HAB by congruence. apply (lowrank_conj L).
        -- apply HAB; congruence.
      * apply (hpost_rk_same m rc cc r ds (tr xt X)); [exact HR|exact HU| |].
        -- destruct xt.
           ++ exists A, Y'. split; [eapply mval_keeps; [exact HA|exact HK|]|]. { intros b Hb Hb'. apply O3. apply inm_blk in Hb, Hb'. unfold f in Hb'. congruence. }
              split; [exact HV'|]. split; [exact K1|]. split; [exact K2|]. intros i j Hi Hj. cbn [tr]. apply (lowrank_conj L).
           ++ exists Y', B. split; [exact HV'|]. split; [eapply mval_keeps; [exact HB|exact HK|]|]. { intros b Hb Hb'. apply O3. apply inm_blk in Hb, Hb'. unfold f in Hb'. congruence. }
              split; [exact K1|]. split; [exact K2|]. intros i j Hi Hj. reflexivity.
        -- eapply keeps_mono; [|exact HK]. intros b Hb. unfold f in Hb. destruct xt; [right|left]; exact Hb.
  - pose proof HR as HRx. inversion_clear HRx as [|? ? ? ? ? V1 V2 V3|]. pose proof HU as HUx. inversion_clear HUx as [|? ? ? ? U1 U2 U3|].
    apply wp_bind. eapply (wp_trileaf solve lower aunit t xt a f D X m); [exact HT|exact U3|exact V3| |intros b Hb Hb'; apply (Dj b Hb), hfp_full, Hb'|exact Hnz|].
    + rewrite Eh. destruct xt; cbn; congruence.
    + intros E m' HE HV' HK. cbn [wp]. apply (HQ E); [|eapply hpost_full; eassumption]. rewrite Eh in HE. replace (csz (tcc xt _)) with (Harith.tcols xt f) by (destruct xt; cbn; congruence). exact HE.
  - pose proof HR as HRx. inversion_clear HRx as [| |? ? ? ? ? ? hs0 ws0 ? V1 V2 V3 V4 V5 V6 V7]. set (x := HM rc cc None None (Some l) rs cs ds) in *.
    pose proof (tparts xt m rc cc l rs cs ds _ HR SX PX) as HTP. cbv zeta in HTP. fold x in HTP. destruct HTP as ((R0 & C0 & ER & ECs) & (HR1 & _) & (E1 & E2) & (P1 & P2) & HPt).
    assert (HL0 : length l0 = length l) by (clear - HF; induction HF; cbn; congruence).
    assert (Hrec : forall i k s, i < trsons xt x -> k < tcsons xt x -> nth_error l (tidx xt (trsons xt x) (tcsons xt x) i k) = Some s ->
      exists go, sget (K := K) (Some (map (tri_h O svd rank solve lower aunit t xt) l0)) (tidx xt (trsons xt x) (tcsons xt x) i k) = Ret go /\ tri_ok solve lower aunit t xt go s).
    { intros i k s Hi Hk Hs. destruct (nth_ex l0 (tidx xt (trsons xt x) (tcsons xt x) i k)) as (s0 & Hs0); [rewrite HL0; apply nth_error_Some; congruence|].
      exists (tri_h O svd rank solve lower aunit t xt s0). split; [apply sget_map; exact Hs0|].
      intros a1 x1 m1 D1 X1 Q1 HL1. apply (IH l0 s0 eq_refl (nth_error_In _ _ Hs0)). eapply hlike_trans; [exact (BlockP.Forall2_nth _ _ _ HF _ _ _ Hs0 Hs)|exact HL1]. }
    pose proof HT as HTx. destruct HT as [arc f ads D Q1 Q2 Q3|arc la n ads ahs D Q1 Q2 Q3 Q4 Q5]; cbn [hm_f hm_rc hm_cc hm_rsons hm_csons hm_son] in *.
    + destruct (HPt 0 0 R0 C0) as (x0 & D0 & Hx0 & C1 & _). cbn [hm_son x]. assert (Hx00 : nth_error l 0 = Some x0) by (rewrite <- Hx0; f_equal; unfold tidx; destruct xt; lia).
      apply wp_bind. rewrite (sget_some _ _ _ Hx00). cbn [wp]. rewrite C1. set (c1 := trc xt x) in *. subst arc.
      destruct (split_flag (K := K) c1) as (F1 & F2 & _). set (sp := negb (cp_eqb (prt c1 0) c1)) in *.
      apply wp_bind. apply (wp_split_tri f c1 sp m).
      * intros i Hi. rewrite F2. apply HR1. rewrite F1, <- ER in Hi. exact Hi.
      * rewrite F1, <- ER. exact R0.
      * rewrite F1, <- ER. exact E1.
      * rewrite F1, <- ER. exact P1.
      * exact Q1.
      * exact Q2.
      * rewrite F1, <- ER. cbv zeta. intros la ads' HLa Hla. cbn [hm_rsons hm_son]. rewrite Nat.eqb_refl. cbn [passert bind].
        apply wp_bind. eapply (wp_trisons L O H HZ orth good chosen dom svd rank Hsvd Hrank Hdom Hless solve lower aunit t xt _ la m rc cc l rs cs ds X D (inh (HM c1 c1 None (Some f) None 0 0 ads))); try assumption.
        -- eapply tblocks_views; [exact HTx|exact E1|exact P1|exact HLa|exact Hla].
        -- intros E x' m' HE HP'. apply wp_bind. eapply wp_del_views; [exact HLa| |cbn [wp]; apply (HQ E); assumption].
           intros s Is. apply In_nth_error in Is as (k & Hk). assert (Hlt : k < trsons xt x * trsons xt x) by (rewrite <- HLa; apply nth_error_Some; congruence).
           destruct (tidx_inv false _ _ _ Hlt) as (i & j & Hi & Hj & ->). cbn [tidx] in Hk. rewrite (Hla i j s Hi Hj Hk). repeat (split || reflexivity || eexists).
    + subst arc. destruct (tblocks_super lower aunit m _ la n ads D HTx SA PA) as (En & HB). assert (EnR : trsons xt x = n) by congruence. clear En Ers. subst n.
      rewrite Nat.eqb_refl. cbn [passert bind].
      replace (if negb solve && lower && negb t then hm_rsons x else trsons xt x) with (trsons xt x).
      2:{ destruct (negb solve && lower && negb t) eqn:Eb; [|reflexivity]. destruct xt; [|reflexivity]. cbn [andb] in Hsq. symmetry. eapply (Hsq eq_refl x); [apply hnodes_self|reflexivity]. }
      rewrite Nat.eqb_refl. cbn [passert bind].
      eapply (wp_trisons L O H HZ orth good chosen dom svd rank Hsvd Hrank Hdom Hless solve lower aunit t xt _ la m rc cc l rs cs ds X D _); try eassumption.
Qed.
End P.
