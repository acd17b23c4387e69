(** * Triangular H-matrices applied to H-matrices *)
From Coq Require Import Arith Lia List Bool Permutation Ring.
From Verif Require Import Fld Ord Prog Arr View Loop Line Spec FactorSpec Cluster Block BlockP Avector Amatrix AvectorP AmatrixP AmatrixP2 Rkmatrix RkSpec RkP Factor Chol CholSpec Qr QrSpec
  CbP CbmSpec CbmP CopSpec OrthoP SepP SepP2 Htrunc HtSpec HtP HtP2 HtP3 HtP4 Hmatrix HmSpec HmP HmP3 HmP4 HlibSpec Harith HaSpec HaP HaP2 HaP3 HaddSpec HmvP Hadd MgP MgP2 MgP3 HaddP HaddP2 HaddP3 HaddP4 HaddP5 HaddP6 Hmul HmulP HmulP2 HmulP3 HmulP4 HmulP5 Hfac HfacSpec HfacP.
Import ListNotations.

Section P.
Context {K : fops} {G : ofops} (L : field_laws K) (O : qops K) (H : qlaws O) (HZ : exact_zero O).
Context (orth : Prop) (good : nat -> (nat -> K) -> Prop) (chosen : nat -> (nat -> K) -> nat -> Prop) (dom : nat -> nat -> Prop).
Context (svd : mat -> vec -> mat -> mat -> prog K unit) (rank : vec -> prog K nat) (Hsvd : svd_ok orth good dom svd) (Hrank : rank_ok good chosen rank).
Context (Hdom : forall r c, dom r c) (Hless : forall n s k, chosen n s k -> forall l, k <= l < n -> s l = f0).
Notation RL := (fl_ring K L).
Add Ring KringHfac2 : (rl_ring K (fl_ring K L)).
Local Notation hmx := (hmatrix G).
Implicit Types (m : mem K) (h s x y z a : hmx) (l : list hmx) (D E U V W X Y Z : nat -> nat -> K) (r : rkm) (rc cc : cptr G).

Lemma tr_neg (t : bool) D p q : tr (negb t) D p q = fconj (tr t D q p).
Proof. destruct t; cbn; [rewrite (rl_conj_conj K RL)|]; reflexivity. Qed.
Lemma trc_neg (t : bool) h : tcc (negb t) h = trc t h /\ trc (negb t) h = tcc t h.
Proof. destruct t; split; reflexivity. Qed.

Lemma wp_updson alpha (t xt : bool) a xi xj m D X Z : fconj alpha = alpha ->
  hrep m a D -> hstd a -> hpos a -> hrep m xi (tr xt X) -> hstd xi -> hpos xi -> hrep m xj (tr xt Z) -> hmut m xj -> hstd xj ->
  trc t a = trc xt xj -> tcc t a = trc xt xi -> tcc xt xi = tcc xt xj -> disj (inh a) (hfp xj) -> disj (inh xi) (hfp xj) ->
  wp TT TT (updson O svd rank alpha t xt a xi xj) m (hpost m xj (tr xt (fun p c => Z p c + alpha * sum (csz (tcc t a)) (fun q => tr t D p q * X q c))%F)).
Proof.
  intros Ea HA SA PA HI SI PI HJ UJ SJ E1 E2 E3 Da Di. unfold updson. destruct xt.
  - destruct (trc_neg t a) as [T1 T2].
    eapply (wp_addmul L O H HZ orth good chosen dom svd rank Hsvd Hrank Hdom Hless alpha false (negb t) xi a xj m (tr true X) D (tr true Z)); try assumption.
    + cbn in *. congruence.
    + rewrite T1. cbn in *. congruence.
    + rewrite T2. cbn in *. congruence.
    + intros z' m' HP. eapply hpost_ext; [exact HP|]. intros i j _ _. cbv beta. unfold prodf. cbn [tr]. rewrite (rl_conj_add K RL), (rl_conj_mul K RL), Ea, (sum_conj RL). f_equal. f_equal.
      replace (csz (tcc false xi)) with (csz (tcc t a)) by (f_equal; cbn in *; congruence). apply sum_ext. intros q _. rewrite (rl_conj_mul K RL), tr_neg. ring.
  - eapply (wp_addmul L O H HZ orth good chosen dom svd rank Hsvd Hrank Hdom Hless alpha t false a xi xj m D X Z); try assumption.
    + cbn in *. congruence.
    + cbn in *. congruence.
    + intros z' m' HP. exact HP.
Qed.

Lemma htri_moves (lower aunit : bool) F F' m m' a D : htri lower aunit m a D -> moves m F F' m' -> disj (inh a) F -> htri lower aunit m' a D.
Proof.
  intros HT Hm. induction HT as [rc f ds D H1 H2 H3|rc l n ds hs D P1 P2 P3 P4 IH P5]; intros Hd.
  - constructor; auto. intros i j Hi Hj Hok. rewrite (moves_get _ _ _ _ _ Hm); [apply H3; assumption|rewrite H3 by assumption; discriminate|].
    intros Hb. eapply (Hd _); [|exact Hb]. eapply inh_f; [reflexivity|]. apply inm_ma; assumption.
  - econstructor; eauto.
    + intros j s Hj Hs. eapply IH; eauto. intros b Hb. apply Hd. eapply inh_son; [reflexivity|eapply nth_error_In; exact Hs|exact Hb].
    + intros i j s Hi Hj Ho Hs. eapply hrep_moves; [exact Hm|eapply P5; eassumption|]. intros b Hb. apply Hd. eapply inh_son; [reflexivity|eapply nth_error_In; exact Hs|exact Hb].
Qed.
Lemma htri_rc (lower aunit : bool) m a D : htri lower aunit m a D -> hm_rc a = hm_cc a /\ hm_r a = None /\ hm_rsons a = hm_csons a.
Proof. intros HT. destruct HT; cbn; auto. Qed.

Lemma hpost_rk_same m rc cc r ds D D' m' : hrep m (HM rc cc (Some r) None None 0 0 ds : hmx) D -> hmut m (HM rc cc (Some r) None None 0 0 ds : hmx) ->
  rkrep m' r D' -> keeps (inrk r) m m' -> hpost m (HM rc cc (Some r) None None 0 0 ds : hmx) D' (HM rc cc (Some r) None None 0 0 ds) m'.
Proof.
  intros HR HU HD HK. inversion HR as [? ? ? ? ? V1 V2 V3| |]. inversion HU as [? ? ? ? U1 U2 U3| |]. subst.
  destruct U3 as (A1 & A2 & A3 & A4 & A5 & A6 & A7 & A8 & A9 & A10 & A11). pose proof HD as (A & B & HA & HB & _).
  split; [constructor; assumption|]. split; [|split; [constructor|]].
  - constructor; try assumption. unfold rkown. pose proof (proj1 HK). repeat split; try assumption; try lia.
    + intros i j Hi Hj. rewrite HA by assumption. discriminate.
    + intros i j Hi Hj. rewrite HB by assumption. discriminate.
  - eapply (moves_ext _ (rkblk r) (rkblk r)); [intros b; symmetry; apply hfp_rk|intros b; symmetry; apply hfp_rk|]. eapply moves_keeps; [exact HK| |].
    + intros b [Hb|Hb]; apply inm_blk in Hb; [left|right]; exact Hb.
    + intros b [E|E]; rewrite E; assumption.
Qed.

(** ** The blocks of the triangular matrix *)
Record tblocks (lower aunit : bool) m (c : cptr G) (la : list hmx) (R : nat) D (F : addr -> Prop) : Prop := Tblocks {
  tb_at : forall i j, i < R -> j < R -> exists s, nth_error la (i + j * R) = Some s /\ hm_rc s = prt c i /\ hm_cc s = prt c j /\ hstd s /\ hpos s /\
    (i = j -> htri lower aunit m s (fun p q => D (nsum i (fun i => csz (prt c i)) + p)%nat (nsum j (fun j => csz (prt c j)) + q)%nat)) /\
    ((if lower then j < i else i < j) -> hrep m s (fun p q => D (nsum i (fun i => csz (prt c i)) + p)%nat (nsum j (fun j => csz (prt c j)) + q)%nat));
  tb_in : forall s b, In s la -> inh s b -> F b }.

Lemma tblocks_super (lower aunit : bool) m rc l n ds D : let a := HM rc rc None None (Some l) n n ds in htri lower aunit m a D -> hstd a -> hpos a ->
  n = part_sons true rc /\ tblocks lower aunit m rc l n D (inh a).
Proof.
  intros a HT HS HP. inversion HT as [|? ? ? ? hs ? P1 P2 P3 P4 P5]; subst. destruct (HS a l (hnodes_self a) eq_refl) as (_ & HC). cbn [hm_rsons hm_csons hm_rc hm_cc a] in HC.
  assert (N0 : 0 < n). { destruct n; [|lia]. destruct (HP a (hnodes_self a)) as [Q1 _]. unfold hrows, a in Q1. cbn in Q1, P2. lia. }
  assert (Hex : forall i j, i < n -> j < n -> exists s, nth_error l (i + j * n) = Some s) by (intros i j Hi Hj; apply nth_ex; rewrite P1; apply pos_lt; lia).
  assert (Hh : forall i, i < n -> hs i = csz (prt rc i)).
  { intros i Hi. destruct (Hex i 0 Hi N0) as (s & Hs). destruct (HC i 0 s Hi N0 Hs) as [C1 _]. apply (cl_part_prt (K := K)) in C1 as (E1 & _). destruct (P3 i 0 s Hi N0 Hs) as [<- _]. unfold hrows. rewrite E1. reflexivity. }
  split. { destruct (Hex 0 0 N0 N0) as (s & Hs). destruct (HC 0 0 s N0 N0 Hs) as [C1 _]. apply (cl_part_prt (K := K)) in C1 as (_ & E1 & _). exact E1. }
  constructor.
  - intros i j Hi Hj. destruct (Hex i j Hi Hj) as (s & Hs). destruct (HC i j s Hi Hj Hs) as [C1 C2]. apply (cl_part_prt (K := K)) in C1 as (E1 & _). apply (cl_part_prt (K := K)) in C2 as (E2 & _).
    pose proof (nth_error_In _ _ Hs) as Is. exists s. split; [exact Hs|]. split; [exact E1|]. split; [exact E2|]. split; [eapply hstd_son; [exact HS|reflexivity|exact Is]|].
    split; [eapply hpos_son; [exact HP|reflexivity|exact Is]|].
    rewrite <- (nsum_ext' i hs) by (intros q Hq; apply Hh; lia). rewrite <- (nsum_ext' j hs) by (intros q Hq; apply Hh; lia). split.
    + intros ->. apply P4; assumption.
    + intros Ho. apply P5; assumption.
  - intros s b Is Hb. eapply inh_son; [reflexivity|exact Is|exact Hb].
Qed.
Lemma tblocks_views (lower aunit : bool) m rc f ds D l n : let a := HM rc rc None (Some f) None 0 0 ds in htri lower aunit m a D ->
  nsum n (fun i => csz (prt rc i)) = csz rc -> (forall i, i < n -> 0 < csz (prt rc i)) -> length l = n * n ->
  (forall i j s, i < n -> j < n -> nth_error l (i + j * n) = Some s ->
        s = HM (prt rc i) (prt rc j) None (Some (subm f (nsum i (fun i => csz (prt rc i))) (csz (prt rc i)) (nsum j (fun j => csz (prt rc j))) (csz (prt rc j)))) None 0 0 1) ->
  tblocks lower aunit m rc l n D (inh a).
Proof.
  intros a HT ES HP HL HV. inversion HT as [? ? ? ? P1 P2 P3|]; subst.
  assert (Hin : forall i, i < n -> nsum i (fun i => csz (prt rc i)) + csz (prt rc i) <= csz rc) by (intros i Hi; pose proof (nsum_in (fun i => csz (prt rc i)) i n Hi); cbv beta in *; lia).
  constructor.
  - intros i j Hi Hj. destruct (nth_ex l (i + j * n)) as (s & Hs); [rewrite HL; apply pos_lt; lia|]. pose proof (HV i j s Hi Hj Hs) as Es. exists s. split; [exact Hs|]. subst s. cbn [hm_rc hm_cc].
    split; [reflexivity|]. split; [reflexivity|]. split; [apply leaf_std; reflexivity|]. split.
    { intros u [<-|[]]. unfold hrows, hcols. cbn. auto. }
    split.
    + intros <-. constructor; [reflexivity|reflexivity|]. intros p q Hp Hq Hok. cbn in Hp, Hq. rewrite ma_subm. apply P3; [pose proof (Hin i Hi); lia|pose proof (Hin i Hi); lia|].
      destruct Hok as [[-> E]|Ho]; [left; auto|right; destruct lower; lia].
    + intros Ho. constructor; [reflexivity|reflexivity|]. intros p q Hp Hq. cbn in Hp, Hq. rewrite ma_subm. apply P3; [pose proof (Hin i Hi); lia|pose proof (Hin j Hj); lia|].
      right. destruct lower; [pose proof (nsum_le (fun i => csz (prt rc i)) j i Ho)|pose proof (nsum_le (fun i => csz (prt rc i)) i j Ho)]; cbv beta in *; lia.
  - intros s b Is Hb. apply In_nth_error in Is as (k & Hk). assert (Hlt : k < n * n) by (rewrite <- HL; apply nth_error_Some; congruence).
    destruct (tidx_inv false n n k Hlt) as (i & j & Hi & Hj & ->). cbn [tidx] in Hk. rewrite (HV i j s Hi Hj Hk) in Hb.
    inversion Hb as [? r0 ? E Hin'|? f0' ? E Hin'|? l0' s' ? E Hs' Hin']; cbn in E; try discriminate. injection E as <-. subst. eapply inh_f; [reflexivity|].
    eapply inm_subm; [| |exact Hin']; rewrite ?P1, ?P2; apply Hin; assumption.
Qed.

Lemma wp_split_tri (f : mat) rc (sp : bool) m (Q : hmx -> mem K -> Prop) : let n := part_sons sp rc in let rl := prt rc in
  (forall i, i < n -> part_son (K := K) sp rc i = Ret (rl i)) -> 0 < n -> nsum n (fun i => csz (rl i)) = csz rc ->
  (forall i, i < n -> 0 < csz (rl i)) -> mrows f = csz rc -> mcols f = csz rc ->
  (forall l ds, let h := HM rc rc None None (Some l) n n ds in length l = n * n -> (forall i j s, i < n -> j < n -> nth_error l (i + j * n) = Some s ->
        s = HM (rl i) (rl j) None (Some (subm f (nsum i (fun i => csz (rl i))) (csz (rl i)) (nsum j (fun j => csz (rl j))) (csz (rl j)))) None 0 0 1) -> Q h m) ->
  wp TT TT (split_sub_amatrix f rc rc sp sp) m Q.
Proof.
  intros n rl HRl R0 E1 PR RF CF HQ. unfold split_sub_amatrix.
  apply (wp_split _ sp sp rc rc n n rl rl (fun l1 m1 => m1 = m /\ (forall i j s, i < n -> j < n -> nth_error l1 (i + j * n) = Some s ->
        s = HM (rl i) (rl j) None (Some (subm f (nsum i (fun i => csz (rl i))) (csz (rl i)) (nsum j (fun j => csz (rl j))) (csz (rl j)))) None 0 0 1))); auto.
  - split; [reflexivity|]. intros i j s _ _ Hs. destruct (i + j * n); discriminate.
  - intros i j l1 m1 Hi Hj HL [-> HI]. pose proof (nsum_in (fun i => csz (rl i)) i n Hi). pose proof (nsum_in (fun j => csz (rl j)) j n Hj). apply wp_bind, wp_init_sub_amatrix; [lia|lia|]. cbn [wp]. split; [reflexivity|].
    intros i' j' t Hi' Hj' Ht. apply app_nth in Ht as [[Hk Ht]|[Hk Ht]]; [apply HI; assumption|]. rewrite HL in Hk. apply pos_inj in Hk as [-> ->]; [|assumption|assumption]. exact Ht.
  - intros l m' ds HL [-> HI]. apply HQ; assumption.
Qed.

(** ** Subdivided right-hand sides *)
(** The system is solved or the product is computed: [E] is the new and [X] is the old matrix. *)
Definition tpost (solve lower aunit t : bool) (n w : nat) D X E : Prop := forall p c, p < n -> c < w ->
  if solve then sum n (fun q => tr t (tripart lower aunit D) p q * E q c)%F = X p c else E p c = sum n (fun q => tr t (tripart lower aunit D) p q * X q c)%F.
Definition tri_ok (solve lower aunit t xt : bool) (go : hmx -> hmx -> prog K hmx) (s0 : hmx) : Prop := forall a x m D X (Q : hmx -> mem K -> Prop),
  hlike s0 x -> htri lower aunit m a D -> hstd a -> hpos a -> (forall b, inh a b -> fst b < next m) ->
  hrep m x (tr xt X) -> hmut m x -> hstd x -> hpos x -> hm_cc a = trc xt x -> disj (inh a) (hfp x) ->
  (negb solve && lower && negb t && xt = true -> hsqr x) ->
  (solve = true -> aunit = true \/ (forall i, i < hrows a -> D i i <> f0)) ->
  (forall E x' m', tpost solve lower aunit t (csz (trc xt x)) (csz (tcc xt x)) D X E -> hpost m x (tr xt E) x' m' -> Q x' m') ->
  wp TT TT (go a x) m Q.

Lemma hsqr_son h l s : hsqr h -> hm_son h = Some l -> In s l -> hsqr s.
Proof. intros HS El Is u lu Iu. apply HS. eapply hnodes_son; eassumption. Qed.
Lemma hsqr_like h h' : hlike h h' -> hsqr h -> hsqr h'.
Proof.
  intros HL HS s' l' Is' El'. destruct (hlike_nodes h h' s' HL Is') as (s & Hs & HLs). destruct (hlike_sons s s' l' HLs El') as (l & El & HF & Er & Ec).
  rewrite Er, Ec. eapply HS; eassumption.
Qed.
Lemma tc_like (t : bool) h h' : hlike h h' -> trc t h' = trc t h /\ tcc t h' = tcc t h.
Proof. intros HL. apply hlike_cl in HL as [E1 E2]. destruct t; auto. Qed.

Lemma wp_trisons (solve lower aunit t xt : bool) rec la m rc cc l rs cs ds X D (F : addr -> Prop) (Q : hmx -> mem K -> Prop) : let x := HM rc cc None None (Some l) rs cs ds in
  let R := trsons xt x in let C := tcsons xt x in let c1 := trc xt x in let c2 := tcc xt x in
  hrep m x (tr xt X) -> hmut m x -> hstd x -> hpos x ->
  tblocks lower aunit m c1 la R D F -> (forall b, F b -> fst b < next m) -> disj F (hfp x) ->
  (forall i k s, i < R -> k < C -> nth_error l (tidx xt R C i k) = Some s -> exists go, sget (K := K) rec (tidx xt R C i k) = Ret go /\ tri_ok solve lower aunit t xt go s) ->
  (negb solve && lower && negb t && xt = true -> hsqr x) ->
  (solve = true -> aunit = true \/ (forall i, i < csz c1 -> D i i <> f0)) ->
  (forall E x' m', tpost solve lower aunit t (csz c1) (csz c2) D X E -> hpost m x (tr xt E) x' m' -> Q x' m') ->
  wp TT TT (trisons O svd rank solve (xorb lower t) t xt rec (Some la) R x) m Q.
Proof.
  intros x R C c1 c2 HR HU HS HP HT HF HD Hrec Hsq Hnz HQ.
  pose proof (tparts xt m rc cc l rs cs ds _ HR HS HP) as HTP. fold x R C c1 c2 in HTP. cbv zeta in HTP. destruct HTP as ((R0 & C0 & ER & EC) & _ & (E1 & E2) & (P1 & P2) & HPt).
  set (hs := fun i => csz (prt c1 i)) in *. set (ws := fun i => csz (prt c2 i)) in *.
  assert (HL : length l = R * C). { inversion HR. subst. unfold R, C. destruct xt; cbn; lia. }
  assert (Hcl : forall i k s, i < R -> k < C -> nth_error l (tidx xt R C i k) = Some s -> trc xt s = prt c1 i /\ tcc xt s = prt c2 k).
  { intros i k s Hi Hk Hs. destruct (HPt i k Hi Hk) as (s' & D' & Hs' & Q1 & Q2 & _). rewrite Hs in Hs'. injection Hs' as <-. auto. }
  assert (Hsz : forall i k s, i < R -> k < C -> nth_error l (tidx xt R C i k) = Some s -> csz (trc xt s) = hs i /\ csz (tcc xt s) = ws k).
  { intros i k s Hi Hk Hs. destruct (Hcl i k s Hi Hk Hs) as [-> ->]. auto. }
  assert (Hst : forall k s u, nth_error l k = Some s -> hlike s u -> hstd u /\ hpos u).
  { intros k s u Hs HLu. pose proof (nth_error_In _ _ Hs) as Is. split; [eapply hstd_like; [exact HLu|]; eapply hstd_son; [exact HS|reflexivity|exact Is]|eapply hpos_like; [exact HLu|]; eapply hpos_son; [exact HP|reflexivity|exact Is]]. }
  assert (HDl : disj F (fpl l)) by (intros b Hb Hb'; apply (HD b Hb); apply hfp_super; exact Hb').
  assert (HF0 : tf xt R C hs ws m l l X m).
  { unfold tf. pose proof HR as HRx. inversion_clear HRx as [| |? ? ? ? ? ? hs0 ws0 ? V1 V2 V3 V4 V5 V6 V7].
    destruct (std_parts m rc cc l rs cs ds hs0 ws0 (tr xt X) HS V1 V2 V3 V6 V7) as (_ & _ & _ & _ & HPs).
    replace (if xt then C else R) with rs by (unfold R, C; destruct xt; reflexivity).
    replace (if xt then ws else hs) with (fun i => csz (prt rc i)) by (unfold hs, ws, c1, c2; destruct xt; reflexivity).
    replace (if xt then hs else ws) with (fun i => csz (prt cc i)) by (unfold hs, ws, c1, c2; destruct xt; reflexivity).
    eapply forest_sons; [exact V3| |exact HU]. intros i j s Hi Hj Hs. apply (HPs i j s Hi Hj Hs). }
  unfold trisons. fold R C. cbn [hm_son x]. apply wp_bind.
  eapply (wp_tricols L xt R C hs ws m l HL Hsz (xorb lower t) (tr t (tripart lower aunit D))) with (4 := HF0); [exact (tri_0 RL lower aunit t D)| | |].
  - intros u v Huv. set (iu := ord (xorb lower t) R u). set (iv := ord (xorb lower t) R v).
    assert (Iu : iu < R) by (unfold iu, ord; destruct (xorb lower t); lia). assert (Iv : iv < R) by (unfold iv, ord; destruct (xorb lower t); lia).
    assert (Iuv : if xorb lower t then iu < iv else iv < iu) by (unfold iu, iv, ord; destruct (xorb lower t); lia).
    destruct (tb_at _ _ _ _ _ _ _ _ HT (if t then iu else iv) (if t then iv else iu)) as (a & Ha & A1 & A2 & A3 & A4 & _ & A6); [destruct t; assumption|destruct t; assumption|].
    assert (A7 : if lower then (if t then iv else iu) < (if t then iu else iv) else (if t then iu else iv) < (if t then iv else iu)) by (destruct lower, t; cbn [xorb] in Iuv; exact Iuv).
    specialize (A6 A7). exists a. split; [unfold blk; destruct t; exact Ha|].
    intros k si sj ui uj m1 F1 X1 Z1 alpha Hk Hsi Hsj HLi HLj Hm HF1 Hdj Hri Hui Hrj Huj Hal.
    destruct (Hst _ _ _ Hsi HLi) as [S1 S2]. destruct (Hst _ _ _ Hsj HLj) as [S3 S4]. destruct (tc_like xt _ _ HLi) as [C1 C2]. destruct (tc_like xt _ _ HLj) as [C3 C4].
    destruct (Hcl _ _ _ Iu Hk Hsi) as [C5 C6]. destruct (Hcl _ _ _ Iv Hk Hsj) as [C7 C8].
    assert (T1 : trc t a = prt c1 iv) by (destruct t; cbn; congruence). assert (T2 : tcc t a = prt c1 iu) by (destruct t; cbn; congruence).
    assert (Hda : disj (inh a) F1). { eapply (moves_disj m (fpl l) F1); [exact Hm| |]; [intros b Hb; apply HF; eapply tb_in; [exact HT|eapply nth_error_In; exact Ha|exact Hb]|intros b Hb; apply HDl; eapply tb_in; [exact HT|eapply nth_error_In; exact Ha|exact Hb]]. }
    eapply wp_conseq; [eapply (wp_updson alpha t xt a ui uj m1 _ X1 Z1 Hal); try assumption|].
    + eapply hrep_moves; [exact Hm|exact A6|]. intros b Hb. apply HDl. eapply tb_in; [exact HT|eapply nth_error_In; exact Ha|exact Hb].
    + congruence.
    + congruence.
    + congruence.
    + intros b Hb Hb'. apply (Hda b Hb). apply HF1. auto.
    + intros b Hb Hb'. apply (Hdj b); [apply inh_hfp; exact Hb|exact Hb'].
    + intros s' m' HPo. eapply hpost_ext; [exact HPo|]. intros i j Hi Hj. apply (tr_rng xt _ _ i j (csz (prt c1 iv)) (csz (tcc xt uj))).
      { unfold hrows, hcols in *. destruct xt; cbn [trc tcc] in *; rewrite ?C3, ?C7 in *; split; congruence || lia. }
      intros p c Hp Hc. cbv beta. f_equal. f_equal. rewrite T2. apply sum_ext. intros q Hq. f_equal.
      pose proof (nsum_le hs iu iv). pose proof (nsum_le hs iv iu). unfold tr. destruct t; [f_equal|]; apply tri_off; destruct lower; cbn [xorb] in Iuv; unfold hs in *; lia.
  - intros i k Hi Hk. destruct (tb_at _ _ _ _ _ _ _ _ HT i i Hi Hi) as (a & Ha & A1 & A2 & A3 & A4 & A5 & _). specialize (A5 eq_refl).
    destruct (nth_ex l (tidx xt R C i k)) as (s & Hs); [rewrite HL; apply tidx_lt; assumption|]. destruct (Hrec i k s Hi Hk Hs) as (go & Hgo & Hok). exists a, go. split; [exact Ha|]. split; [exact Hgo|].
    intros si ui m1 F1 X1 Q1 Hsi HLi Hm HF1 Hri Hui HQ1. rewrite Hs in Hsi. injection Hsi as <-. destruct (Hst _ _ _ Hs HLi) as [S1 S2]. destruct (tc_like xt _ _ HLi) as [C1 C2]. destruct (Hcl _ _ _ Hi Hk Hs) as [C5 C6].
    assert (Ia : forall b, inh a b -> F b) by (intros b Hb; eapply tb_in; [exact HT|eapply nth_error_In; exact Ha|exact Hb]).
    eapply (Hok a ui m1 _ X1 Q1 HLi); [eapply htri_moves; [exact A5|exact Hm|intros b Hb; apply HDl, Ia, Hb]|exact A3|exact A4| |exact Hri|exact Hui|exact S1|exact S2|congruence| | | |].
    + intros b Hb. pose proof (HF b (Ia b Hb)). pose proof (proj1 Hm). lia.
    + assert (Hda : disj (inh a) F1) by (eapply (moves_disj m (fpl l) F1); [exact Hm|intros b Hb; apply HF, Ia, Hb|intros b Hb; apply HDl, Ia, Hb]). intros b Hb Hb'. apply (Hda b Hb), HF1, Hb'.
    + intros E. eapply hsqr_like; [exact HLi|]. eapply hsqr_son; [apply Hsq, E|reflexivity|eapply nth_error_In; exact Hs].
    + intros E. destruct (Hnz E) as [?|Hnz']; [left; assumption|]. right. intros q Hq. apply Hnz'. unfold hrows in Hq. rewrite A1 in Hq. pose proof (nsum_in hs i R Hi). unfold hs in *. lia.
    + intros E s' m' HE HPo. apply (HQ1 E s' m'); [|exact HPo]. intros p c Hp Hc. specialize (HE p c). rewrite C1, C2, C5, C6 in HE. specialize (HE Hp Hc).
      destruct solve; rewrite <- HE || rewrite HE; apply sum_ext; intros q Hq; rewrite tri_shift; reflexivity.
  - intros l' W m' HW HFo. cbn [wp]. apply (HQ W); [intros p c Hp Hc; rewrite <- E1; apply (HW c); [rewrite E2; exact Hc|rewrite E1; exact Hp]|].
    unfold set_sons, x. cbn. pose proof HR as HRx. inversion_clear HRx as [| |? ? ? ? ? ? hs0 ws0 ? V1 V2 V3 V4 V5 V6 V7].
    unfold tf in HFo.
    replace (if xt then C else R) with rs in HFo by (unfold R, C; destruct xt; reflexivity).
    replace (if xt then ws else hs) with (fun i => csz (prt rc i)) in HFo by (unfold hs, ws, c1, c2; destruct xt; reflexivity).
    replace (if xt then hs else ws) with (fun i => csz (prt cc i)) in HFo by (unfold hs, ws, c1, c2; destruct xt; reflexivity).
    eapply forest_end; [exact V1|exact V2|exact V3| | | |exact HFo].
    + unfold R, C, hs, ws, c1, c2 in E1, E2. destruct xt; cbn in E1, E2; assumption.
    + unfold R, C, hs, ws, c1, c2 in E1, E2. destruct xt; cbn in E1, E2; assumption.
    + destruct (std_parts m rc cc l rs cs ds hs0 ws0 (tr xt X) HS V1 V2 V3 V6 V7) as (_ & _ & _ & _ & HPs). intros i j s Hi Hj Hs. destruct (HPs i j s Hi Hj Hs) as (Y1 & Y2 & _). unfold hrows, hcols. rewrite Y1, Y2. auto.
Qed.
End P.
