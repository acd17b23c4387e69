(** * Products of H2-matrices and dense matrices *)
From Coq Require Import Arith Lia List Bool Ring.
From Verif Require Import Fld Ord Prog Arr View Loop Spec Cluster Block Avector AvectorP Amatrix AmatrixP AmatrixP2 LrP3 Hmatrix HmSpec HmP HmP2
  Clusterbasis CbSpec CbP CbP2 CbP3 CbP4 CbP9 CbP10 H2matrix H2Spec H2P H2P2 H2P3.
Import ListNotations.

Section H2P4.
Context {K : fops} {G : ofops} (L : ring_laws K).
Add Ring KringH24 : (rl_ring K L).
Implicit Types (m : mem K) (R W : addr -> Prop) (h : h2matrix G) (ib ob : cbasis G) (M : cbasis G -> nat -> nat -> K)
  (D : nat -> nat -> K) (X Y : nat -> nat -> K).

Definition h2_ib (t : bool) h : cbasis G := if t then h2_rb h else h2_cb h.
Definition h2_ob (t : bool) h : cbasis G := if t then h2_cb h else h2_rb h.

(** The matrix of coefficients [Y'] results from [Y] by adding something with the backward transform
    alpha [D] [X]. *)
Definition madds M ob ni D X alpha nc Y Y' : Prop := forall c, c < nc -> forall p, p < cb_size ob ->
  bwd_of M ob (fun o => Y' o c) p = (bwd_of M ob (fun o => Y o c) p + alpha * mvec ni D (fun q => X q c) p)%F.

Lemma wp_mcoupling (t : bool) R W alpha A (Xt Yt : mat) M (b1 b2 : cbasis G) Su D X XT Y m (Q : unit -> mem K -> Prop) :
  let ib := if t then b1 else b2 in let ob := if t then b2 else b1 in
  mrows A = cb_k b1 -> mcols A = cb_k b2 -> mval m A Su ->
  (forall p q, p < cb_size b1 -> q < cb_size b2 -> D p q = vsw M b1 b2 Su p q) ->
  cbok b1 -> cbok b2 -> mwf Yt -> mval m Xt XT -> mval m Yt Y -> mrows Xt = cb_ktree ib -> mrows Yt = cb_ktree ob -> mcols Yt = mcols Xt ->
  (forall c, c < mcols Xt -> fwd_of M ib (fun p => X p c) (fun o => XT o c)) ->
  disj (inm Xt) (inm Yt) -> disj (inm A) (inm Yt) -> rdok R W (inm A) -> rdok R W (inm Xt) -> wrok W (inm Yt) ->
  (forall m' Y', mval m' Yt Y' -> madds M ob (cb_size ib) (tr t D) X alpha (mcols Xt) Y Y' -> keeps (inm Yt) m m' -> Q tt m') ->
  wp R W (addmul_amatrix alpha t A false (subm Xt 0 (cb_k ib) 0 (mcols Xt)) (subm Yt 0 (cb_k ob) 0 (mcols Yt))) m Q.
Proof.
  intros ib ob E1 E2 HA HD Hr Hc Hw Hx Hy Ex Ey En HF Dxy DA RA Rx Wy HQ.
  assert (Hi : cbok ib) by (subst ib; destruct t; assumption). assert (Ho : cbok ob) by (subst ob; destruct t; assumption).
  pose proof (cbok_k_ktree ib Hi). pose proof (cbok_k_ktree ob Ho).
  assert (Eo : (if t then mcols A else mrows A) = cb_k ob) by (subst ob; destruct t; lia).
  assert (Ei : (if t then mrows A else mcols A) = cb_k ib) by (subst ib; destruct t; lia).
  eapply (wp_addmul_amatrix L R W alpha t A false); [apply mwf_subm; [exact Hw|lia]|exact HA|apply mval_subm; [exact Hx|lia|lia]|apply mval_subm; [exact Hy|lia|lia]| | |exact RA| | |cbn; lia|cbn; lia|cbn; lia|].
  - apply rb_disj; [lia|exact DA].
  - apply rb_disj; [lia|]. apply disj_rb; [lia|exact Dxy].
  - apply rb_r; [lia|exact Rx].
  - apply rb_w; [lia|exact Wy].
  - intros m' Hy' Hk'. eapply HQ; [eapply mval_subm_back; [exact Hw|exact Hy| | |exact Hy'|exact Hk']; lia| |eapply rb_keeps; [|exact Hk']; lia].
    intros c Hcc p Hp. rewrite Eo, Ei. cbn [mcols subm].
    pose proof (bwd_add L M ob (fun o => Y o c) (fun o => alpha * sum (cb_k ib) (fun j => tr t Su o j * XT (0 + j)%nat c))%F p Ho Hp) as HB.
    etransitivity; [|etransitivity; [exact HB|]].
    + apply bwd_ext; [exact Ho|exact Hp|reflexivity|]. intros q Hq. cbn [Nat.leb andb Nat.add]. rewrite !Nat.sub_0_r.
      destruct (Nat.ltb_spec c (mcols Yt)); [|lia]. destruct (Nat.ltb_spec q (cb_k ob)); cbn [andb]; [|reflexivity].
      destruct (Nat.ltb_spec c (mcols Xt)); [reflexivity|lia].
    + f_equal. assert (Em : mvec (cb_size ib) (tr t D) (fun q => X q c) p = sum (cb_k ob) (fun q => M ob p q * sum (cb_k ib) (fun j => tr t Su q j * XT j c))%F).
      { specialize (HF c Hcc). subst ib ob. destruct t; [exact (vsw_mvec_trans L M b1 b2 Su D _ _ p Hp HF HD)|etransitivity; [exact (vsw_mvec L M b1 b2 Su D _ _ p Hp HF HD)|reflexivity]]. }
      rewrite Em. rewrite <- (sum_mul_l L). apply sum_ext. intros q Hq. cbn [Nat.add]. ring.
Qed.
Lemma wp_mdense (t : bool) R W alpha A (Xt Yt : mat) M (b1 b2 : cbasis G) D X XT Y m (Q : unit -> mem K -> Prop) :
  let ib := if t then b1 else b2 in let ob := if t then b2 else b1 in
  mrows A = cb_size b1 -> mcols A = cb_size b2 -> mval m A D -> cb_son b1 = [] -> cb_son b2 = [] ->
  cbok b1 -> cbok b2 -> mwf Yt -> mval m Xt XT -> mval m Yt Y -> mrows Xt = cb_ktree ib -> mrows Yt = cb_ktree ob -> mcols Yt = mcols Xt ->
  (forall c, c < mcols Xt -> fwd_of M ib (fun p => X p c) (fun o => XT o c)) ->
  disj (inm Xt) (inm Yt) -> disj (inm A) (inm Yt) -> rdok R W (inm A) -> rdok R W (inm Xt) -> wrok W (inm Yt) ->
  (forall m' Y', mval m' Yt Y' -> madds M ob (cb_size ib) (tr t D) X alpha (mcols Xt) Y Y' -> keeps (inm Yt) m m' -> Q tt m') ->
  wp R W (addmul_amatrix alpha t A false (subm Xt (cb_k ib) (cb_size ib) 0 (mcols Xt)) (subm Yt (cb_k ob) (cb_size ob) 0 (mcols Yt))) m Q.
Proof.
  intros ib ob E1 E2 HA Lr Lc Hr Hc Hw Hx Hy Ex Ey En HF Dxy DA RA Rx Wy HQ.
  assert (Hi : cbok ib) by (subst ib; destruct t; assumption). assert (Ho : cbok ob) by (subst ob; destruct t; assumption).
  assert (Li : cb_son ib = []) by (subst ib; destruct t; assumption). assert (Lo : cb_son ob = []) by (subst ob; destruct t; assumption).
  pose proof (cbok_ktree ib Hi) as Ki. pose proof (cbok_ktree ob Ho) as Ko. unfold cb_leaf in Ki, Ko. rewrite Li in Ki. rewrite Lo in Ko.
  assert (Eo : (if t then mcols A else mrows A) = cb_size ob) by (subst ob; destruct t; lia).
  assert (Ei : (if t then mrows A else mcols A) = cb_size ib) by (subst ib; destruct t; lia).
  eapply (wp_addmul_amatrix L R W alpha t A false); [apply mwf_subm; [exact Hw|lia]|exact HA|apply mval_subm; [exact Hx|lia|lia]|apply mval_subm; [exact Hy|lia|lia]| | |exact RA| | |cbn; lia|cbn; lia|cbn; lia|].
  - apply rb_disj; [lia|exact DA].
  - apply rb_disj; [lia|]. apply disj_rb; [lia|exact Dxy].
  - apply rb_r; [lia|exact Rx].
  - apply rb_w; [lia|exact Wy].
  - intros m' Hy' Hk'. eapply HQ; [eapply mval_subm_back; [exact Hw|exact Hy| | |exact Hy'|exact Hk']; lia| |eapply rb_keeps; [|exact Hk']; lia].
    intros c Hcc p Hp. rewrite Eo, Ei. cbn [mcols subm]. rewrite !(bwd_leaf L) by assumption. cbn [Nat.leb andb Nat.add].
    destruct (Nat.ltb_spec c (mcols Yt)); [|lia]. destruct (Nat.ltb_spec c (mcols Xt)); [|lia]. rewrite !andb_true_r.
    destruct (Nat.leb_spec (cb_k ob) (cb_k ob + p)); [|lia]. destruct (Nat.ltb_spec (cb_k ob + p) (cb_k ob + cb_size ob)); [|lia]. cbn [andb].
    replace (cb_k ob + p - cb_k ob) with p by lia. rewrite Nat.sub_0_r.
    destruct (Nat.ltb_spec p (cb_size ob)); [|lia].
    assert (Em : sum (cb_size ib) (fun j => tr t D p j * XT (cb_k ib + j)%nat c)%F = mvec (cb_size ib) (tr t D) (fun q => X q c) p).
    { unfold mvec. apply sum_ext. intros q Hq. f_equal. destruct (HF c Hcc 0 0 ib (nodes_self ib)) as [_ A2]. apply A2; [unfold cb_leaf; rewrite Li; reflexivity|exact Hq]. }
    assert (Ec : (c <? mcols Xt) = true) by (apply Nat.ltb_lt; lia). rewrite Ec. cbn [andb]. cbn [tr]. rewrite Em. rewrite (sum_ext (cb_k ob) _ (fun q => M ob p q * Y q c)%F); [ring|]. intros q Hq.
    destruct (Nat.leb_spec (cb_k ob) q); [lia|]. reflexivity.
Qed.

Lemma wp_h2_mpart R W cb n i (s : cbasis G) cols (Xt : mat) m (Q : mat -> mem K -> Prop) :
  cbok cb -> i < n -> part_of cb n i s -> mrows Xt = cb_ktree cb -> cols = mcols Xt -> Q (subm Xt (pcol cb i) (cb_ktree s) 0 (mcols Xt)) m ->
  wp R W (h2_mpart cb i (noff cb i) cols Xt) m Q.
Proof.
  intros Hok Hi Hp Ex -> HQ. pose proof (part_room cb n i s Hok Hi Hp) as Hr. unfold h2_mpart, pcol, noff in *.
  destruct Hp as [(E & -> & ->)|(-> & Hs)].
  - rewrite E in *. apply wp_init_sub_amatrix; [lia|lia|exact HQ].
  - destruct (nth_in _ _ _ Hs) as [_ Hin]. destruct (cb_son cb) eqn:E; [destruct Hin|]. rewrite (sget_some _ _ _ Hs). cbn [bind].
    apply wp_init_sub_amatrix; [lia|lia|exact HQ].
Qed.

(** A divided H2-matrix seen from the input and output bases. *)
Lemma h2rep_view (t : bool) M m (b1 b2 : cbasis G) l rsons csons ds hs ws D :
  let h := H2 b1 b2 None None (Some l) rsons csons ds in
  let no := if t then csons else rsons in let ni := if t then rsons else csons in
  let os := if t then ws else hs in let is := if t then hs else ws in
  length l = rsons * csons -> 0 < rsons -> 0 < csons ->
  (forall i j s, i < rsons -> j < csons -> nth_error l (i + j * rsons) = Some s -> h2rows s = hs i /\ h2cols s = ws j) ->
  (forall i j s, i < rsons -> j < csons -> nth_error l (i + j * rsons) = Some s -> h2rep M m s (fun p q => D (nsum i hs + p) (nsum j ws + q))) ->
  (forall i j s, i < rsons -> j < csons -> nth_error l (i + j * rsons) = Some s ->
       part_of b1 rsons i (h2_rb s) /\ part_of b2 csons j (h2_cb s) /\ h2strict s) ->
  forall i j, i < no -> j < ni -> exists s Ds, nth_error l (if t then i * ni + j else i + j * no) = Some s /\
    cb_size (h2_ob t s) = os i /\ cb_size (h2_ib t s) = is j /\ part_of (h2_ob t h) no i (h2_ob t s) /\ part_of (h2_ib t h) ni j (h2_ib t s) /\ h2strict s /\
    h2rep M m s Ds /\ (forall p q, tr t Ds p q = tr t D (nsum i os + p) (nsum j is + q)).
Proof.
  intros h no ni os is Hl N1 N2 P6 P7 HS i j Hi Hj. destruct t; subst no ni os is; cbn [tr].
  - destruct (nth_ex l (j + i * rsons)) as [s Hs]; [rewrite Hl; apply pos_lt; assumption|]. exists s, (fun p q => D (nsum j hs + p)%nat (nsum i ws + q)%nat).
    rewrite (Nat.add_comm (i * rsons) j). destruct (P6 j i s Hj Hi Hs) as [E1 E2]. destruct (HS j i s Hj Hi Hs) as (A1 & A2 & A3). unfold h2_ob, h2_ib.
    repeat split; try assumption. apply P7; assumption.
  - destruct (nth_ex l (i + j * rsons)) as [s Hs]; [rewrite Hl; apply pos_lt; assumption|]. exists s, (fun p q => D (nsum i hs + p)%nat (nsum j ws + q)%nat).
    destruct (P6 i j s Hi Hj Hs) as [E1 E2]. destruct (HS i j s Hi Hj Hs) as (A1 & A2 & A3). unfold h2_ob, h2_ib.
    repeat split; try assumption. apply P7; assumption.
Qed.

Lemma wp_fastm (t : bool) M h : forall R W alpha (Xt Yt : mat) D X XT Y m (Q : unit -> mem K -> Prop),
  h2rep M m h D -> h2strict h -> cbok (h2_rb h) -> cbok (h2_cb h) -> mwf Yt -> mval m Xt XT -> mval m Yt Y ->
  mrows Xt = cb_ktree (h2_ib t h) -> mrows Yt = cb_ktree (h2_ob t h) -> mcols Yt = mcols Xt ->
  (forall c, c < mcols Xt -> fwd_of M (h2_ib t h) (fun p => X p c) (fun o => XT o c)) ->
  disj (inm Xt) (inm Yt) -> disj (inh2 h) (inm Yt) -> rdok R W (inh2 h) -> rdok R W (inm Xt) -> wrok W (inm Yt) ->
  (forall m' Y', mval m' Yt Y' -> madds M (h2_ob t h) (cb_size (h2_ib t h)) (tr t D) X alpha (mcols Xt) Y Y' -> keeps (inm Yt) m m' -> Q tt m') ->
  wp R W (fastaddmul_h2matrix_amatrix_amatrix alpha t h Xt Yt) m Q.
Proof.
  induction h as [h IH] using h2_rect'. intros R W alpha Xt Yt D X XT Y m Q Hrep Hst Hr Hc Hw Hx Hy Ex Ey En HF Dxy Dhy Rh Rx Wy HQ.
  destruct Hrep as [b1 b2 A Su ds D P1 P2 P3 P4|b1 b2 F ds D P1 P2 P3|b1 b2 ds D P1|b1 b2 l rsons csons ds hs ws D P1 P2 P3 P4 P5 P6 P7];
    cbn [fastaddmul_h2matrix_amatrix_amatrix]; cbv zeta.
  - unfold h2_ib, h2_ob in *. cbn [h2_rb h2_cb] in *. set (ib := if t then b1 else b2) in *. set (ob := if t then b2 else b1) in *.
    assert (Hi : cbok ib) by (subst ib; destruct t; assumption). assert (Ho : cbok ob) by (subst ob; destruct t; assumption).
    pose proof (cbok_k_ktree ib Hi). pose proof (cbok_k_ktree ob Ho).
    apply wp_bind, wp_init_sub_amatrix; [lia|lia|]. apply wp_bind, wp_init_sub_amatrix; [lia|lia|]. apply wp_bind.
    eapply (wp_mcoupling t R W alpha A Xt Yt M b1 b2); eauto.
    + intros a Ha. apply Dhy. eapply inh2_u; [reflexivity|exact Ha].
    + intros a Ha. apply Rh. eapply inh2_u; [reflexivity|exact Ha].
  - inversion Hst as [|? ? ? ? L1 L2| |]; subst.
    unfold h2_ib, h2_ob in *. cbn [h2_rb h2_cb] in *. set (ib := if t then b1 else b2) in *. set (ob := if t then b2 else b1) in *.
    assert (Hi : cbok ib) by (subst ib; destruct t; assumption). assert (Ho : cbok ob) by (subst ob; destruct t; assumption).
    assert (Li : cb_son ib = []) by (subst ib; destruct t; assumption). assert (Lo : cb_son ob = []) by (subst ob; destruct t; assumption).
    pose proof (cbok_ktree ib Hi) as Ki. pose proof (cbok_ktree ob Ho) as Ko. unfold cb_leaf in Ki, Ko. rewrite Li in Ki. rewrite Lo in Ko.
    apply wp_bind, wp_init_sub_amatrix; [lia|lia|]. apply wp_bind, wp_init_sub_amatrix; [lia|lia|]. apply wp_bind.
    eapply (wp_mdense t R W alpha F Xt Yt M b1 b2); eauto.
    + intros a Ha. apply Dhy. eapply inh2_f; [reflexivity|exact Ha].
    + intros a Ha. apply Rh. eapply inh2_f; [reflexivity|exact Ha].
  - cbn [wp]. eapply HQ; [exact Hy| |apply keeps_refl]. intros c Hcc p Hp. unfold mvec. rewrite (sum_0 L); [ring|].
    intros q Hq. unfold h2_ib, h2_ob in *. cbn [h2_rb h2_cb] in *. destruct t; cbn [tr]; rewrite P1 by assumption; [rewrite (fconj_0 L)|]; ring.
  - inversion Hst as [| | |? ? ? ? ? ? HS]; subst.
    pose proof (h2rep_view t M m b1 b2 l rsons csons ds hs ws D P3 P1 P2 P6 P7 HS) as HV. cbv zeta in HV.
    set (h := H2 b1 b2 None None (Some l) rsons csons ds) in *.
    change (if t then b2 else b1) with (h2_ob t h). change (if t then b1 else b2) with (h2_ib t h).
    assert (Hi : cbok (h2_ib t h)) by (destruct t; assumption). assert (Ho : cbok (h2_ob t h)) by (destruct t; assumption).
    assert (Ni : 0 < (if t then rsons else csons)) by (destruct t; assumption). assert (No : 0 < (if t then csons else rsons)) by (destruct t; assumption).
    assert (Qo : nsum (if t then csons else rsons) (if t then ws else hs) = cb_size (h2_ob t h)) by (destruct t; assumption).
    assert (Qi : nsum (if t then rsons else csons) (if t then hs else ws) = cb_size (h2_ib t h)) by (destruct t; assumption).
    set (ob := h2_ob t h) in *. set (ib := h2_ib t h) in *.
    set (no := if t then csons else rsons) in *. set (ni := if t then rsons else csons) in *.
    set (os := if t then ws else hs) in *. set (is := if t then hs else ws) in *.
    assert (HPr : forall i, i < no -> exists s, part_of ob no i s /\ cb_size s = os i).
    { intros i Hi0. destruct (HV i 0 Hi0 Ni) as (s & Ds & _ & B1 & _ & B2 & _). eauto. }
    assert (HPc : forall j, j < ni -> exists s, part_of ib ni j s /\ cb_size s = is j).
    { intros j Hj0. destruct (HV 0 j No Hj0) as (s & Ds & _ & _ & B1 & _ & B2 & _). eauto. }
    pose proof (part_prow ob no os HPr) as Eh. pose proof (part_prow ib ni is HPc) as Ew.
    rewrite <- (noff_0 ib), <- (noff_0 ob).
    apply wp_bind.
    apply (wp_forS (fun j xoff m1 => xoff = noff ib j /\ exists Y1, mval m1 Yt Y1 /\
      madds M ob (nsum j is) (tr t D) X alpha (mcols Xt) Y Y1 /\ keeps (inm Yt) m m1)).
    + split; [reflexivity|]. exists Y. split; [exact Hy|]. split; [|apply keeps_refl]. intros c Hcc p Hp. cbn [nsum]. unfold mvec. cbn [sum]. ring.
    + intros j xoff m1 [_ Hj] (-> & Y1 & Hy1 & HB1 & Hk1). cbn in Hj.
      destruct (HPc j Hj) as (cs & Hcs & Ecs).
      apply wp_bind. unfold h2_split_ok. apply wp_assert; [eapply part_split; exact Hcs|].
      apply wp_bind. eapply wp_h2_mpart; [exact Hi|exact Hj|exact Hcs|exact Ex|reflexivity|].
      pose proof (part_room ib ni j cs Hi Hj Hcs) as Bc.
      apply wp_bind.
      apply (wp_forS (fun i yoff m2 => yoff = noff ob i /\ exists Y2, mval m2 Yt Y2 /\
        (forall c, c < mcols Xt -> forall p, p < cb_size ob -> bwd_of M ob (fun o => Y2 o c) p = bwd_of M ob (fun o => Y o c) p + alpha * mvec (if p <? nsum i os then nsum (S j) is else nsum j is) (tr t D) (fun q => X q c) p)%F /\ keeps (inm Yt) m m2)).
      * split; [reflexivity|]. exists Y1. split; [exact Hy1|]. split; [|exact Hk1]. intros c Hcc p Hp. rewrite HB1 by assumption. reflexivity.
      * intros i yoff m2 [_ Hi'] (-> & Y2 & Hy2 & HB2 & Hk2). cbn in Hi'.
        destruct (HV i j Hi' Hj) as (s & Ds & Hs & Eo & Ei & Po & Pi & Ss & Rs & ED).
        apply wp_bind. unfold h2_split_ok. apply wp_assert; [eapply part_split; exact Po|].
        apply wp_bind. eapply wp_h2_mpart; [exact Ho|exact Hi'|exact Po|exact Ey|symmetry; exact En|].
        pose proof (part_room ob no i _ Ho Hi' Po) as Br.
        pose proof (part_fun _ _ _ _ _ Pi Hcs) as Ecs'.
        rewrite (sget_map _ _ _ _ Hs). cbn [bind]. apply wp_bind.
        assert (Dhy' : disj (inh2 s) (inm Yt)) by (intros a Ha; apply Dhy; eapply inh2_sub; eauto).
        eapply (IH l s eq_refl (nth_error_In _ _ Hs)) with (X := fun p c => X (prow ib j + p)%nat c).
        -- eapply h2rep_keeps; [exact Rs|exact Hk2|exact Dhy'].
        -- exact Ss.
        -- destruct t; [eapply part_ok; [|exact Pi]|eapply part_ok; [|exact Po]]; assumption.
        -- destruct t; [eapply part_ok; [|exact Po]|eapply part_ok; [|exact Pi]]; assumption.
        -- apply mwf_subm; [exact Hw|lia].
        -- apply mval_subm; [|lia|lia]. eapply mval_keeps; [exact Hx|exact Hk2|exact Dxy].
        -- apply mval_subm; [exact Hy2|lia|lia].
        -- rewrite Ecs'. reflexivity.
        -- reflexivity.
        -- exact En.
        -- intros c Hcc. cbn [mcols subm] in Hcc. rewrite Ecs'. exact (fwd_part_of M ib ni j cs _ _ Hj Hcs (HF c Hcc)).
        -- apply rb_disj; [lia|]. apply disj_rb; [lia|exact Dxy].
        -- apply rb_disj; [lia|exact Dhy'].
        -- intros a Ha. apply Rh. eapply inh2_sub; eauto.
        -- apply rb_r; [lia|exact Rx].
        -- apply rb_w; [lia|exact Wy].
        -- intros m3 Y3 Hy3 HB3 Hk3. cbn [uninit_amatrix mown subm bind]. rewrite (h2_next_eq ob no i _ Hi' Po). cbn [wp].
           split; [reflexivity|]. eexists. split; [eapply mval_subm_back; [exact Hw|exact Hy2| | |exact Hy3|exact Hk3]; lia|].
           split; [|eapply keeps_trans; [exact Hk2|eapply rb_keeps; [|exact Hk3]; lia]].
           intros c Hcc p Hp. cbn [mcols subm] in HB3.
           rewrite (bwd_part_of L M ob no i (h2_ob t s) (fun o => Y2 o c) _ (fun p => alpha * mvec (is j) (fun p q => tr t D (nsum i os + p)%nat (nsum j is + q)%nat) (shiftv (fun q => X q c) (prow ib j)) p)%F Ho Hi' Po).
           ++ rewrite <- Eh by lia. rewrite Eo. cbn [nsum].
              destruct (Nat.leb_spec (nsum i os) p) as [Hlo|Hlo]; cbn [andb].
              ** destruct (Nat.ltb_spec p (nsum i os + os i)) as [Hhi|Hhi].
                 --- rewrite HB2 by assumption. destruct (Nat.ltb_spec p (nsum i os)); [lia|].
                     rewrite (mvec_app L). unfold mvec. replace (nsum i os + (p - nsum i os)) with p by lia. unfold shiftv. rewrite <- Ew by lia. ring.
                 --- rewrite HB2 by assumption. destruct (Nat.ltb_spec p (nsum i os)); [lia|reflexivity].
              ** rewrite HB2 by assumption. destruct (Nat.ltb_spec p (nsum i os + os i)); [|lia]. destruct (Nat.ltb_spec p (nsum i os)); [|lia]. reflexivity.
           ++ intros o Hoo Ho'. cbn beta. destruct (Nat.leb_spec (pcol ob i) o); [|reflexivity]. destruct (Nat.ltb_spec o (pcol ob i + cb_ktree (h2_ob t s))); [lia|reflexivity].
           ++ intros p' Hp''. specialize (HB3 c Hcc p' Hp'').
              assert (EA : mvec (cb_size (h2_ib t s)) (tr t Ds) (fun q => X (prow ib j + q)%nat c) p' = mvec (is j) (fun p q => tr t D (nsum i os + p)%nat (nsum j is + q)%nat) (shiftv (fun q => X q c) (prow ib j)) p').
              { unfold mvec. rewrite Ei. apply sum_ext. intros q _. rewrite ED. reflexivity. }
              cbv beta in HB3. rewrite EA in HB3. etransitivity; [|exact HB3].
              apply bwd_ext; [eapply part_ok; [exact Ho|exact Po]|exact Hp''|reflexivity|]. intros q Hq. unfold shiftv.
              destruct (Nat.leb_spec (pcol ob i) (pcol ob i + q)); [|lia]. destruct (Nat.ltb_spec (pcol ob i + q) (pcol ob i + cb_ktree (h2_ob t s))); [|lia].
              destruct (Nat.ltb_spec c (0 + mcols Yt)); [|lia]. cbn [andb Nat.leb]. rewrite Nat.sub_0_r.
              replace (pcol ob i + q - pcol ob i) with q by lia. reflexivity.
           ++ exact Hp.
      * intros yoff m2 (-> & Y2 & Hy2 & HB2 & Hk2). cbn [Nat.add] in *.
        destruct (HPr 0 No) as (r0 & Hr0 & _). rewrite (noff_end ob no 0 r0 Ho Hr0). wstep. cbn [uninit_amatrix mown subm bind].
        rewrite (h2_next_eq ib ni j cs Hj Hcs). cbn [wp].
        split; [reflexivity|]. exists Y2. split; [exact Hy2|]. split; [|exact Hk2]. intros c Hcc p Hp. rewrite HB2 by assumption. rewrite Qo.
        destruct (Nat.ltb_spec p (cb_size ob)); [reflexivity|lia].
    + intros xoff m1 (-> & Y1 & Hy1 & HB1 & Hk1). cbn [Nat.add] in *.
      destruct (HPc 0 Ni) as (c0 & Hc0 & _). rewrite (noff_end ib ni 0 c0 Hi Hc0). wstep. eapply HQ; [exact Hy1| |exact Hk1].
      rewrite <- Qi. exact HB1.
Qed.

Lemma wp_mtmp R W r n (q : mat -> prog K unit) m (Q : unit -> mem K -> Prop) :
  (forall xp m1, xp = Mat (next m) 0 r r n true -> mwf xp -> malloc m1 xp -> next m1 = S (next m) -> keeps (fun a => fst a = next m) m m1 ->
     wp R (fun a => W a \/ fst a = next m) (q xp) m1 Q) ->
  wp R W (xp <- init_amatrix r n ;; q xp) m Q.
Proof.
  intros H. unfold init_amatrix at 1. cbn [bind palloc wp].
  pose proof (wp_init_amatrix R W r n m (fun A m1 => mwf A /\ malloc m1 A)) as HI.
  assert (HJ : wp R W (init_amatrix r n) m (fun A m1 => mwf A /\ malloc m1 A)) by (apply HI; auto). cbn in HJ. destruct HJ as [J1 J2].
  apply (H (Mat (next m) 0 r r n true) (alloc m (r * n))); [reflexivity|exact J1|exact J2|reflexivity|].
  eapply keeps_mono; [|apply (keeps_alloc m (r * n) (fun _ => False)); apply keeps_refl]. cbn. intros ? [[]|?]; assumption.
Qed.
Lemma wp_muntmp (R W : addr -> Prop) (xp : mat) b m r n (Q : unit -> mem K -> Prop) : xp = Mat b 0 r r n true -> b < next m ->
  (forall o, W (b, o)) -> Q tt (dealloc m b) -> wp R W (uninit_amatrix xp) m Q.
Proof. intros -> N HW HQ. unfold uninit_amatrix. cbn [mown bind pfree wp mblk]. split; [exact N|]. split; [exact HW|exact HQ]. Qed.

Lemma wp_h2_addmul (t' t : bool) R W alpha h D (Xp Yp : mat) X B m (Q : unit -> mem K -> Prop) :
  let ib := h2_ib t h in let ob := h2_ob t h in
  h2rep (cbmat m) m h D -> h2strict h -> cbready m (h2_rb h) -> cbready m (h2_cb h) ->
  tval m t' Xp X -> trows t' Xp = cb_size ib -> mwf Yp -> mval m Yp B -> mrows Yp = cb_size ob -> mcols Yp = tcols t' Xp ->
  mblk Xp < next m -> mblk Yp < next m -> (forall a, inh2b h a -> fst a < next m) ->
  disj (inh2b h) (inm Yp) -> rdok R W (inh2b h) -> rdok R W (inm Xp) -> wrok W (inm Yp) ->
  (forall m', mval m' Yp (fun p c => B p c + alpha * mvec (cb_size ib) (tr t D) (fun q => X q c) p)%F -> keeps (inm Yp) m m' -> Q tt m') ->
  wp R W (h2_addmul_with (fwdm t') backward_clusterbasis_amatrix alpha t h ib ob (tcols t' Xp) (mcols Yp) Xp Yp) m Q.
Proof.
  intros ib ob Hrep Hst Rr Rc Hx Ex Hwy Hy Ey En Bx By BF Dhy Rh Rx Wy HQ.
  assert (Ri : cbready m ib) by (subst ib; unfold h2_ib; destruct t; assumption). assert (Ro : cbready m ob) by (subst ob; unfold h2_ob; destruct t; assumption).
  destruct Ri as (Oi & Pi & Ii), Ro as (Oo & Po & Io).
  assert (Fi : forall a, incb ib a -> inh2b h a) by (intros a Ha; unfold inh2b; subst ib; unfold h2_ib in Ha; destruct t; auto).
  assert (Fo : forall a, incb ob a -> inh2b h a) by (intros a Ha; unfold inh2b; subst ob; unfold h2_ob in Ha; destruct t; auto).
  assert (Fh : forall a, inh2 h a -> inh2b h a) by (intros a Ha; left; exact Ha).
  unfold h2_addmul_with.
  apply wp_mtmp. intros xt m1 Ext Hwx Ha1 N1 K1. apply wp_mtmp. intros yt m2 Eyt Hwt Ha2 N2 K2.
  set (W2 := fun a => (W a \/ fst a = next m) \/ fst a = next m1).
  assert (K2' : keeps (fun a => next m <= fst a) m m2).
  { eapply keeps_trans; [eapply keeps_mono; [|exact K1]; cbn; lia|]. eapply keeps_mono; [|exact K2]. cbn; lia. }
  assert (Ix : forall a, inm xt a -> fst a = next m) by (intros a Ha'; apply inm_blk in Ha'; rewrite Ha', Ext; reflexivity).
  assert (Iy : forall a, inm yt a -> fst a = next m1) by (intros a Ha'; apply inm_blk in Ha'; rewrite Ha', Eyt; reflexivity).
  assert (Lift : forall P, rdok R W P -> rdok R W2 P).
  { intros P HP a Ha. destruct (HP a Ha); [left; assumption|right; left; left; assumption]. }
  assert (Wx : wrok W2 (inm xt)) by (intros a Ha; left; right; apply Ix, Ha).
  assert (Wt : wrok W2 (inm yt)) by (intros a Ha; right; apply Iy, Ha).
  assert (Dxy : disj (inm xt) (inm yt)) by (intros a H1 H2; apply Ix in H1; apply Iy in H2; lia).
  assert (Exr : mrows xt = cb_ktree ib) by (rewrite Ext; reflexivity). assert (Exc : mcols xt = tcols t' Xp) by (rewrite Ext; reflexivity).
  assert (Eyr : mrows yt = cb_ktree ob) by (rewrite Eyt; reflexivity). assert (Eyc : mcols yt = mcols Yp) by (rewrite Eyt; reflexivity).
  apply wp_bind. eapply wp_clear_amatrix; [exact Hwt|exact Ha2|exact Wt|]. intros m3 Hy3 K3.
  assert (K3' : keeps (fun a => next m <= fst a) m m3).
  { eapply keeps_trans; [exact K2'|]. eapply keeps_mono; [|exact K3]. intros a Ha. apply Iy in Ha. lia. }
  assert (Old : forall P : addr -> Prop, (forall a, P a -> fst a < next m) -> disj P (fun a => next m <= fst a)) by (intros P HP a H1 H2; apply HP in H1; lia).
  assert (Oin : disj (inh2b h) (fun a => next m <= fst a)) by (apply Old; exact BF).
  assert (Hi3 : cbinit m3 ib) by (eapply cbinit_keeps; [exact Ii|exact K3'|intros a Ha; apply Oin, Fi, Ha]).
  apply wp_bind. eapply (wp_fwdm L t' ib) with (X := X); [exact Oi|exact Hi3|exact Exr|exact Hwx| |exact Ex|symmetry; exact Exc| | | | | |exact Wx|].
  { eapply malloc_keeps; [eapply malloc_keeps; [exact Ha1|exact K2|]|exact K3|exact Dxy]. intros a Ha Hb. apply Ix in Ha. lia. }
  { eapply tval_keeps; [exact Hx|exact K3'|]. apply Old. intros a Ha. apply inm_blk in Ha. lia. }
  { intros a H1 H2. apply inm_blk in H1. apply Ix in H2. lia. }
  { intros a H1 H2. specialize (BF a (Fi a H1)). apply Ix in H2. lia. }
  { apply Lift. intros a Ha. apply Rh, Fi, Ha. }
  { apply Lift, Rx. }
  intros m4 XT Hx4 HF4 K4.
  assert (HF : forall c, c < mcols xt -> fwd_of (cbmat m) ib (fun p => X p c) (fun o => XT o c)).
  { intros c Hc. eapply fwd_of_keeps; [exact Oi|exact K3'| |exact (HF4 c Hc)]. intros a Ha. apply Oin, Fi, Ha. }
  assert (K4' : keeps (fun a => next m <= fst a) m m4).
  { eapply keeps_trans; [exact K3'|]. eapply keeps_mono; [|exact K4]. intros a Ha. apply Ix in Ha. lia. }
  apply wp_bind. eapply (wp_fastm t (cbmat m) h R W2 alpha xt yt D X XT (fun _ _ => f0) m4);
    [ |exact Hst|exact (proj1 Rr)|exact (proj1 Rc)|exact Hwt|exact Hx4| |exact Exr|exact Eyr|lia|exact HF|exact Dxy| | | |exact Wt|].
  { eapply h2rep_keeps; [exact Hrep|exact K4'|]. intros a Ha. apply Oin, Fh, Ha. }
  { eapply mval_keeps; [exact Hy3|exact K4|]. intros a H1 H2. exact (Dxy a H2 H1). }
  { intros a H1 H2. specialize (BF a (Fh a H1)). apply Iy in H2. lia. }
  { apply Lift. intros a Ha. apply Rh, Fh, Ha. }
  { apply rdok_w, Wx. }
  fold ib ob. intros m5 Y5 Hy5 HB5 K5.
  assert (K5' : keeps (fun a => next m <= fst a) m m5).
  { eapply keeps_trans; [exact K4'|]. eapply keeps_mono; [|exact K5]. intros a Ha. apply Iy in Ha. lia. }
  assert (Doy : disj (incb ob) (fun a => next m <= fst a)) by (intros a Ha; apply Oin, Fo, Ha).
  apply wp_bind. eapply (wp_bwdm L ob) with (Y := Y5) (B := B); [exact Oo| |exact Eyr|exact Hwt|exact Hy5|exact Ey|symmetry; exact Eyc|exact Hwy| | | | | |exact Wt| |].
  { eapply cbinit_keeps; [exact Io|exact K5'|exact Doy]. }
  { eapply mval_keeps; [exact Hy|exact K5'|]. apply Old. intros a Ha. apply inm_blk in Ha. lia. }
  { intros a H1 H2. apply Iy in H1. apply inm_blk in H2. lia. }
  { intros a H1 H2. specialize (BF a (Fo a H1)). apply Iy in H2. lia. }
  { intros a Ha. apply Dhy, Fo, Ha. }
  { apply Lift. intros a Ha. apply Rh, Fo, Ha. }
  { intros a Ha. left; left. apply Wy, Ha. }
  intros m6 Hy6 _ K6.
  pose proof (proj1 K3). pose proof (proj1 K4). pose proof (proj1 K5). pose proof (proj1 K6).
  unfold W2. apply wp_bind. eapply wp_muntmp; [exact Eyt|lia|intros o; right; reflexivity|].
  eapply wp_muntmp; [exact Ext|cbn; lia|intros o; left; right; reflexivity|].
  apply HQ.
  - intros p c Hp Hc. rewrite !get_dealloc. cbn [fst ma]. destruct (Nat.eqb_spec (mblk Yp) (next m)); [lia|]. destruct (Nat.eqb_spec (mblk Yp) (next m1)); [lia|].
    rewrite Hy6 by assumption. do 2 f_equal. rewrite Ey in Hp. rewrite (bwd_of_keeps _ m m5 ob _ p Oo Hp K5' Doy). rewrite HB5 by (assumption || lia).
    rewrite (bwd_of_0 L _ ob _ p Oo) by reflexivity. ring.
  - apply keeps_dealloc; [lia|]. apply keeps_dealloc; [lia|].
    split; [lia|]. intros a Ha. rewrite (proj2 K6). 2:{ intros [Hb|Hb]; apply Ha; [right; apply Iy; exact Hb|left; left; exact Hb]. }
    rewrite (proj2 K5) by (intros Hb; apply Ha; right; apply Iy; exact Hb).
    rewrite (proj2 K4) by (intros Hb; apply Ha; left; right; apply Ix; exact Hb).
    rewrite (proj2 K3) by (intros Hb; apply Ha; right; apply Iy; exact Hb).
    rewrite (proj2 K2) by (intros Hb; apply Ha; right; exact Hb).
    rewrite (proj2 K1) by (intros Hb; apply Ha; left; right; exact Hb). reflexivity.
Qed.

Lemma wp_addmul_h2 (t t' : bool) R W alpha h D (Xp Yp : mat) f B m (Q : unit -> mem K -> Prop) :
  h2rep (cbmat m) m h D -> h2strict h -> cbready m (h2_rb h) -> cbready m (h2_cb h) ->
  mval m Xp f -> mwf Yp -> mval m Yp B -> trows t' Xp = (if t then h2rows h else h2cols h) -> mrows Yp = (if t then h2cols h else h2rows h) -> mcols Yp = tcols t' Xp ->
  mblk Xp < next m -> mblk Yp < next m -> (forall a, inh2b h a -> fst a < next m) ->
  disj (inh2b h) (inm Yp) -> rdok R W (inh2b h) -> rdok R W (inm Xp) -> wrok W (inm Yp) ->
  (forall m', mval m' Yp (fun i j => B i j + alpha * sum (trows t' Xp) (fun k => tr t D i k * tr t' f k j))%F -> keeps (inm Yp) m m' -> Q tt m') ->
  wp R W (addmul_h2matrix_amatrix_amatrix alpha t h t' Xp Yp) m Q.
Proof.
  intros Hrep Hst Rr Rc Hx Hwy Hy Ex Ey En Bx By BF Dhy Rh Rx Wy HQ.
  assert (Hx' : tval m t' Xp (tr t' f)) by (exists f; split; [exact Hx|reflexivity]).
  unfold addmul_h2matrix_amatrix_amatrix. cbv zeta.
  destruct t, t'; cbn [negb trows tcols] in *; unfold h2rows, h2cols in *; wstep; wstep; wstep.
  - rewrite fwdm_true. eapply (wp_h2_addmul true true); eauto. intros m' Hm'. apply HQ. rewrite Ex. exact Hm'.
  - rewrite fwdm_false. eapply (wp_h2_addmul false true); eauto. intros m' Hm'. apply HQ. rewrite Ex. exact Hm'.
  - rewrite fwdm_true. eapply (wp_h2_addmul true false); eauto. intros m' Hm'. apply HQ. rewrite Ex. exact Hm'.
  - rewrite fwdm_false. eapply (wp_h2_addmul false false); eauto. intros m' Hm'. apply HQ. rewrite Ex. exact Hm'.
Qed.
End H2P4.
