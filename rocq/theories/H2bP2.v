(** * Construction of H2-matrices: block trees, copies, scaling *)
From Coq Require Import Arith Lia List Bool Permutation Ring.
From Verif Require Import Fld Ord Prog Arr View Loop Spec Cluster ClusterSpec ClusterP ClusterP5 Block BlockSpec BlockP BlockP2 BlockP3 Avector Amatrix AmatrixP AmatrixP2 RkP Hmatrix HmSpec HmP HmP4 HmP5 HmP6
  Clusterbasis CbSpec CbP CbP2 Cbmgr CbmSpec CbmP CbmP2 CbmP3 OrthoP OrthoP3 CopP H2matrix H2Spec H2P H2build H2bSpec H2bP.
Import ListNotations.

Section P.
Context {K : fops} {G : ofops} (L : ring_laws K).
Add Ring KringH2b2 : (rl_ring K L).
Local Notation h2x := (h2matrix G).
Local Notation cbx := (cbasis G).
Implicit Types (m : mem K) (h : h2matrix G) (D : nat -> Prop) (Ls X : list mat).

(** ** Parts of bases *)
Lemma bsplit_pos (cb : cbx) l : bsplit cb l -> 0 < length l.
Proof. intros [->|[Hn ->]]; [cbn; lia|]. destruct (cb_son cb); [congruence|cbn; lia]. Qed.
Lemma bsplit_sum (cb : cbx) l : cbok cb -> bsplit cb l -> nsum (length l) (at_ cb_size l) = cb_size cb.
Proof. intros Hok [->|[Hn ->]]; [cbn; reflexivity|]. symmetry. apply cbok_size; assumption. Qed.
Lemma bsplit_ok (cb : cbx) l i s : cbok cb -> bsplit cb l -> nth_error l i = Some s -> cbok s.
Proof. intros Hok [->|[Hn ->]] Hs; [destruct i as [|[|i]]; try discriminate; injection Hs as <-; exact Hok|]. apply (cbok_son cb s Hok (nth_error_In _ _ Hs)). Qed.
Lemma bsplit_desc (cb : cbx) l i s c : bsplit cb l -> nth_error l i = Some s -> cbdesc s c -> cbdesc cb c.
Proof. intros [->|[Hn ->]] Hs Hc; [destruct i as [|[|i]]; try discriminate; injection Hs as <-; exact Hc|]. eapply cbdesc_son; [eapply nth_error_In; exact Hs|exact Hc]. Qed.
Lemma son_eqb (cb s : cbx) i : cbok cb -> nth_error (cb_son cb) i = Some s -> cp_eqb (cb_t s) (cb_t cb) = false.
Proof.
  intros Hok Hs. pose proof (cbok_tson _ _ _ Hok Hs) as Ht. rewrite son_split in Ht. destruct (nth_error (cp_split (cb_t cb)) i) as [q|] eqn:E; [|discriminate]. injection Ht as <-.
  eapply cp_eqb_split. exact E.
Qed.
Lemma desc_mats0 (cb c : cbx) : cbdesc cb c -> incl (cbmats0 c) (cbmats0 cb).
Proof.
  induction 1 as [cb|cb s c Hs Hc IH]; [apply incl_refl|]. eapply incl_tran; [exact IH|]. eapply incl_tran; [apply mats0_in|apply son_mats, Hs].
Qed.

(** Bases with the same shape *)
Section Rel.
Variable Rel : cbx -> cbx -> Prop.
Hypothesis Rel_t : forall a b, Rel a b -> cb_t b = cb_t a.
Hypothesis Rel_len : forall a b, Rel a b -> length (cb_son b) = length (cb_son a).
Hypothesis Rel_sons : forall a b i a' b', Rel a b -> nth_error (cb_son a) i = Some a' -> nth_error (cb_son b) i = Some b' -> Rel a' b'.
Lemma split_rel (rb0 rb : cbx) R0 : cbok rb0 -> bsplit rb0 R0 -> Rel rb0 rb ->
  exists R, bsplit rb R /\ length R = length R0 /\ forall i b0, nth_error R0 i = Some b0 -> exists b, nth_error R i = Some b /\ Rel b0 b /\
    clone_basis (K := K) rb rb0 b0 i = Ret b /\ sub_basis (K := K) rb (cb_t b0) (cb_t rb0) (length R0) i = Ret b.
Proof.
  intros Hok [->|[Hn ->]] HR.
  - exists [rb]. split; [left; reflexivity|]. split; [reflexivity|]. intros [|[|i]] b0 Hb; try discriminate. injection Hb as <-. exists rb. split; [reflexivity|]. split; [exact HR|].
    unfold clone_basis, sub_basis, cb_eqb. rewrite cp_eqb_refl. split; reflexivity.
  - pose proof (Rel_len _ _ HR) as El. exists (cb_son rb). split; [right; split; [|reflexivity]; destruct (cb_son rb0), (cb_son rb); cbn in El; congruence|]. split; [exact El|].
    intros i b0 Hb. destruct (nth_ex (cb_son rb) i) as [b Hb']; [rewrite El; eapply nth_lt; exact Hb|]. exists b. split; [exact Hb'|]. split; [eapply Rel_sons; eassumption|].
    pose proof (son_eqb rb0 b0 i Hok Hb) as En. unfold clone_basis, sub_basis, cb_eqb. rewrite En.
    assert (En' : cp_eqb (cb_t rb0) (cb_t b0) = false) by (destruct (cp_eqb (cb_t rb0) (cb_t b0)) eqn:E; [|reflexivity]; apply cp_eqb_eq in E; symmetry in E; apply cp_eqb_eq in E; congruence).
    rewrite En', El, Nat.eqb_refl. cbn [passert bind]. rewrite (sget_some _ _ _ Hb'). split; reflexivity.
Qed.
End Rel.

(** ** Block trees *)
Inductive b2m : block G -> h2x -> Prop :=
| b2m_u (rb cb : cbx) ds A d : b2m (Blk (cb_t rb) (cb_t cb) true 0 0 [] ds) (H2 rb cb (Some A) None None 0 0 d)
| b2m_f (rb cb : cbx) ds F d : b2m (Blk (cb_t rb) (cb_t cb) false 0 0 [] ds) (H2 rb cb None (Some F) None 0 0 d)
| b2m_super (rb cb : cbx) a rs cs l ds l' d : l <> [] -> length l = rs * cs -> length l' = rs * cs ->
    (forall i b s, nth_error l i = Some b -> nth_error l' i = Some s -> b2m b s) ->
    b2m (Blk (cb_t rb) (cb_t cb) a rs cs (map Some l) ds) (H2 rb cb None None (Some l') rs cs d).

Lemma block_grid (b : block G) : block_tree b -> b_son b <> [] ->
  exists R C l, splitting (b_rc b) R /\ splitting (b_cc b) C /\ b_rsons b = length R /\ b_csons b = length C /\ b_son b = map Some l /\ l <> [] /\
    length l = length R * length C /\
    (forall i j s, i < length R -> j < length C -> nth_error l (i + j * length R) = Some s -> block_tree s /\ nth_error R i = Some (b_rc s) /\ nth_error C j = Some (b_cc s)).
Proof.
  intros T Hne. destruct (block_cases b T) as [(E & _)|(R & C & cols & S1 & S2 & N & E1 & E2 & E3 & F & Hs & Hc)]; [congruence|].
  assert (Hlen : forall c, In c cols -> length c = length R).
  { intros c Hin. destruct (forall2_in _ _ _ _ F Hin) as (q & _ & F'). symmetry. eapply Forall2_len. exact F'. }
  pose proof (Forall2_len _ _ _ F) as HlC. exists R, C, (concat cols). repeat (split; [assumption|]). split; [rewrite (flat_length cols (length R) Hlen); lia|].
  intros i j s Hi Hj Hn. destruct (nth_ex cols j) as [col Hcol]; [lia|]. destruct (nth_ex C j) as [c Hcj]; [lia|].
  rewrite (nth_concat cols (length R) j i col) in Hn; [|apply Forall_forall; exact Hlen|exact Hcol|exact Hi].
  pose proof (BlockP.Forall2_nth _ _ _ F j c col Hcj Hcol) as F'. destruct (nth_ex R i) as [r Hr]; [lia|].
  destruct (BlockP.Forall2_nth _ _ _ F' i r s Hr Hn) as [Er Ec].
  destruct (Hs col s (nth_error_In _ _ Hcol) (nth_error_In _ _ Hn)) as (Ts & _). subst r c. auto.
Qed.
Lemma cover_t (t : cptr G) (cb : cbx) : cbcover t cb -> cb_t cb = t. Proof. intros []. reflexivity. Qed.
Lemma split_cover (rb : cbx) rc R : splitting rc R -> cbcover rc rb ->
  exists RB, bsplit rb RB /\ length RB = length R /\ forall i r, nth_error R i = Some r -> exists rb1, nth_error RB i = Some rb1 /\ cbcover r rb1 /\
    sub_basis (K := K) rb r rc (length R) i = Ret rb1.
Proof.
  intros [->|[Hn ->]] Hc.
  - exists [rb]. split; [left; reflexivity|]. split; [reflexivity|]. intros [|[|i]] r Hr; try discriminate. injection Hr as <-. exists rb. split; [reflexivity|]. split; [exact Hc|].
    unfold sub_basis. rewrite cp_eqb_refl. reflexivity.
  - destruct Hc as [rb El Hs]. assert (E0 : cp_sons (cb_t rb) <> 0) by (unfold cp_sons; destruct (c_sons _); [congruence|discriminate]).
    exists (cb_son rb). split; [right; split; [|reflexivity]; intros E; rewrite E in El; cbn in El; lia|]. rewrite cp_split_length. split; [exact El|].
    intros i r Hr. destruct (nth_ex (cb_son rb) i) as [s Es]; [apply nth_lt in Hr; rewrite cp_split_length in Hr; lia|]. exists s. split; [exact Es|].
    destruct (Hs i s Es) as (t' & Ht' & Hc'). rewrite son_split, Hr in Ht'. injection Ht' as <-. split; [exact Hc'|].
    unfold sub_basis. rewrite (cp_eqb_split _ _ _ Hr), El, Nat.eqb_refl. cbn [passert bind]. apply (sget_some _ _ _ Es).
Qed.

Definition made_h2 D m X (rb cb : cbx) h m' : Prop :=
  h2_rb h = rb /\ h2_cb h = cb /\ h2fit h /\ h2desc_ok h /\ lm D m' (h2mats h ++ X) /\ (forall A, In A (h2mats h) -> next m <= mblk A) /\ kb [] m m'.

Lemma fresh_new m m' Ls (A : mat) r c : A = Mat (next m) 0 r r c true -> forall B, In B [A] -> next m <= mblk B.
Proof. intros -> B [<-|[]]. cbn. lia. Qed.

Lemma wp_super D m X (rb cb : cbx) RB CB' rs cs ob bd q (P : nat -> nat -> h2x -> mem K -> Prop) (Q : h2x -> mem K -> Prop) :
  bsplit rb RB -> bsplit cb CB' -> rs = length RB -> cs = length CB' ->
  (forall j l, j < cs -> ob j l = forS 0 rs (bd j) l) -> (forall i j l, i < rs -> j < cs -> bd j i l = bind (q i j) (fun s => Ret (l ++ [s]))) ->
  (forall i j s m m', P i j s m -> same (h2mats s) m m' -> P i j s m') ->
  (forall i j m1 Ls rb1 cb1, i < rs -> j < cs -> nth_error RB i = Some rb1 -> nth_error CB' j = Some cb1 -> kb [] m m1 -> lm D m1 Ls -> incl X Ls ->
     wp TT TT (q i j) m1 (fun s m2 => P i j s m2 /\ made_h2 D m1 Ls rb1 cb1 s m2)) ->
  lm D m X ->
  (forall l m' d, length l = rs * cs -> (forall i j s, i < rs -> j < cs -> nth_error l (i + j * rs) = Some s ->
       P i j s m' /\ nth_error RB i = Some (h2_rb s) /\ nth_error CB' j = Some (h2_cb s)) ->
     made_h2 D m X rb cb (H2 rb cb None None (Some l) rs cs d) m' -> Q (H2 rb cb None None (Some l) rs cs d) m') ->
  wp TT TT (bind (bind (forS 0 cs ob []) (fun l' => Ret (new_super_h2matrix rb cb rs cs l'))) update_h2matrix) m Q.
Proof.
  intros SR SC -> -> Hob Hbd Pst Hq HL HQ. apply wp_bind, wp_bind.
  eapply (wp_h2new D (length RB) (length CB') ob bd q m X (fun i j s m' => P i j s m' /\ nth_error RB i = Some (h2_rb s) /\ nth_error CB' j = Some (h2_cb s) /\ h2fit s /\ h2desc_ok s)).
  - exact Hob.
  - exact Hbd.
  - intros i j s m1 m2 (H1 & H3) Hs. split; [eapply Pst; eassumption|exact H3].
  - intros i j m1 Ls Hi Hj Hk HL1 HI. destruct (nth_ex RB i Hi) as [rb1 E1]. destruct (nth_ex CB' j Hj) as [cb1 E2].
    eapply wp_conseq; [apply (Hq i j m1 Ls rb1 cb1); assumption|]. cbv beta. intros s m2 (H1 & F1 & F2 & F3 & F4 & F5 & F6 & F7). subst rb1 cb1. auto 10.
  - exact HL.
  - intros l m' (El & HP & HL' & HN & HK). cbn [wp bind new_super_h2matrix].
    assert (Hall : forall s, In s l -> exists i j, i < length RB /\ j < length CB' /\ nth_error l (i + j * length RB) = Some s).
    { intros s Hs. apply In_nth_error in Hs as [k Hk]. destruct (flat_index k (length RB) (length CB')) as (i & j & Hi & Hj & ->); [rewrite <- El; eapply nth_lt; exact Hk|]. exists i, j. auto. }
    assert (Hd : forall s, In s l -> h2desc_ok s) by (intros s Hs; destruct (Hall s Hs) as (i & j & Hi & Hj & Hk); apply (HP i j s Hi Hj Hk)).
    apply wp_update_super; [exact El|exact Hd|]. apply HQ; [exact El| |].
    + intros i j s Hi Hj Hk. destruct (HP i j s Hi Hj Hk) as (H1 & H3 & H4 & _). auto.
    + split; [reflexivity|]. split; [reflexivity|]. split; [|split; [apply desc_super, Hd|split; [exact HL'|split; [exact HN|exact HK]]]].
      apply h2fit_super; auto. intros i j s Hi Hj Hk. destruct (HP i j s Hi Hj Hk) as (_ & H3 & H4 & H5 & _). auto.
Qed.

Lemma made_u D m m' X (rb cb : cbx) A : A = Mat (next m) 0 (cb_k rb) (cb_k rb) (cb_k cb) true -> lm D m' (A :: X) -> kb [] m m' ->
  made_h2 D m X rb cb (H2 rb cb (Some A) None None 0 0 1) m'.
Proof.
  intros EA HL HK. split; [reflexivity|]. split; [reflexivity|]. split; [constructor; rewrite EA; reflexivity|]. split; [apply desc_leaf|]. split; [exact HL|]. split; [|exact HK].
  eapply fresh_new; [exact m'|exact X|exact EA].
Qed.
Lemma made_f D m m' X (rb cb : cbx) A : A = Mat (next m) 0 (cb_size rb) (cb_size rb) (cb_size cb) true -> lm D m' (A :: X) -> kb [] m m' ->
  made_h2 D m X rb cb (H2 rb cb None (Some A) None 0 0 1) m'.
Proof.
  intros EA HL HK. split; [reflexivity|]. split; [reflexivity|]. split; [constructor; rewrite EA; reflexivity|]. split; [apply desc_leaf|]. split; [exact HL|]. split; [|exact HK].
  eapply fresh_new; [exact m'|exact X|exact EA].
Qed.
Lemma made_0 D m X (rb cb : cbx) : lm D m X -> made_h2 D m X rb cb (H2 rb cb None None None 0 0 1) m.
Proof. intros HL. split; [reflexivity|]. split; [reflexivity|]. split; [constructor|]. split; [apply desc_leaf|]. split; [exact HL|]. split; [intros A []|apply kb_refl]. Qed.

Lemma wp_buildh2 D (b : block G) : forall (rb cb : cbx) m X, block_tree b -> cbcover (b_rc b) rb -> cbcover (b_cc b) cb -> lm D m X ->
  wp TT TT (build_from_block_h2matrix b rb cb) m (fun h m' => b2m b h /\ made_h2 D m X rb cb h m').
Proof.
  induction b as [rc cc a rs cs son ds IH] using block_rect'. intros rb cb m X T C1 C2 HL. cbn [b_rc b_cc] in *.
  pose proof (cover_t _ _ C1) as Er. pose proof (cover_t _ _ C2) as Ec. destruct son as [|o son].
  - destruct (block_cases _ T) as [(_ & E1 & E2)|(R & C & cols & _ & _ & _ & _ & _ & E & _ & _ & Hne)].
    2:{ cbn in E. destruct (concat cols); [congruence|discriminate]. }
    cbn in E1, E2. subst rs cs rc cc. cbn [build_from_block_h2matrix]. apply wp_bind. destruct a.
    + unfold new_uniform_h2matrix. apply wp_bind. eapply wp_init_kb; [exact HL|]. intros A m' EA HL' HK. cbn [wp update_h2matrix bind]. split; [constructor|apply made_u; assumption].
    + unfold new_full_h2matrix. apply wp_bind. eapply wp_init_kb; [exact HL|]. intros A m' EA HL' HK. cbn [wp update_h2matrix bind]. split; [constructor|apply made_f; assumption].
  - destruct (block_grid _ T) as (R & C & l & S1 & S2 & E1 & E2 & E & Hne & Hl & Hsub); [discriminate|]. cbn [b_rc b_cc b_rsons b_csons b_son] in *. subst rs cs.
    destruct (split_cover rb rc R S1 C1) as (RB & B1 & B2 & B3). destruct (split_cover cb cc C S2 C2) as (CB' & D1 & D2 & D3).
    cbn [build_from_block_h2matrix]. rewrite E in *. clear E. destruct (map Some l) as [|o' son'] eqn:E'; [destruct l; [congruence|discriminate]|]. cbv beta iota zeta. rewrite <- E' in *. clear o' son' E' o son.
    rewrite <- B2 in *. rewrite <- D2 in *.
    eapply (wp_super D m X rb cb RB CB' (length RB) (length CB') _ _
      (fun i j => match nth_error l (i + j * length RB), nth_error RB i, nth_error CB' j with Some s, Some rb1, Some cb1 => build_from_block_h2matrix s rb1 cb1 | _, _, _ => Fail EBounds end)
      (fun i j s m => forall x, nth_error l (i + j * length RB) = Some x -> b2m x s)); auto.
    + intros j l1 Hj. reflexivity.
    + intros i j l1 Hi Hj. cbv beta. destruct (nth_ex l (i + j * length RB)) as [x Ex]; [rewrite Hl; apply pos_lt; assumption|]. destruct (Hsub i j x Hi Hj Ex) as (_ & F1 & F2).
      destruct (B3 i _ F1) as (rb1 & G1 & _ & G3). destruct (D3 j _ F2) as (cb1 & H1 & _ & H3). rewrite Ex, G1, H1.
      rewrite (sget_some _ _ (Some (b_rc x, b_cc x, build_from_block_h2matrix x))) by (rewrite !nth_error_map, Ex; reflexivity). cbn [bind]. rewrite G3, H3. reflexivity.
    + intros i j m1 Ls rb1 cb1 Hi Hj G1 H1 HK1 HL1 HI. destruct (nth_ex l (i + j * length RB)) as [x Ex]; [rewrite Hl; apply pos_lt; assumption|]. destruct (Hsub i j x Hi Hj Ex) as (Tx & F1 & F2).
      destruct (B3 i _ F1) as (rb1' & G1' & G2 & G3). destruct (D3 j _ F2) as (cb1' & H1' & H2 & H3). rewrite Ex, G1, H1. rewrite G1 in G1'. injection G1' as <-. rewrite H1 in H1'. injection H1' as <-.
      eapply wp_conseq; [apply (IH x); [apply in_map; eapply nth_error_In; exact Ex|exact Tx|exact G2|exact H2|exact HL1]|]. cbv beta. intros s m2 (A1 & A2). split; [|exact A2].
      intros x' Ex'. injection Ex' as <-. exact A1.
    + intros l' m' d El' HP HM. split; [|exact HM]. subst rc cc. apply b2m_super; auto. intros k x s Hx Hs.
      destruct (flat_index k (length RB) (length CB')) as (i & j & Hi & Hj & ->); [rewrite <- Hl; eapply nth_lt; exact Hx|]. destruct (HP i j s Hi Hj Hs) as (H1 & _). apply H1, Hx.
Qed.

Lemma b2m_cl b h : b2m b h -> cb_t (h2_rb h) = b_rc b /\ cb_t (h2_cb h) = b_cc b. Proof. intros []; auto. Qed.
Lemma b2m_keys b : forall h, b2m b h -> map h2key (h2leaves h) = map b2key (bleaves b).
Proof.
  induction b as [rc cc a rs cs son ds IH] using block_rect'. intros h H.
  inversion H as [rb cb ? A d|rb cb ? F d|rb cb ? ? ? l ? l' d Hne Hl Hl' Hs]; subst; try reflexivity.
  rewrite bleaves_eq. cbn [b_son h2leaves]. destruct (map Some l) eqn:E; [destruct l; [congruence|discriminate]|]. rewrite <- E in *. clear E. rewrite flat_some.
  assert (F : Forall2 (fun x s => map h2key (h2leaves s) = map b2key (bleaves x)) l l').
  { apply Forall2_nth_error; [lia|]. intros i x s Hx Hs'. apply (IH x); [apply in_map; eapply nth_error_In; exact Hx|]. eapply Hs; eassumption. }
  clear -F. induction F as [|x s l l' Hxs F IH]; [reflexivity|]. cbn. rewrite !map_app. congruence.
Qed.
Lemma b2m_back b : forall h, block_tree b -> (forall x, In x (bnodes b) -> b_a x = true -> b_son x = []) -> b2m b h -> build_from_h2matrix_block h = Ok b.
Proof.
  induction b as [rc cc a rs cs son ds IH] using block_rect'. intros h T Ha H. pose proof (T _ (bnodes_refl _)) as [Ed _]. cbn [b_desc] in Ed.
  inversion H as [rb cb ? A d|rb cb ? F d|rb cb ? ? ? l ? l' d Hne Hl Hl' Hs]; subst; cbn [build_from_h2matrix_block].
  - cbn [rbind]. rewrite update_leaf. cbn in Ed. rewrite Ed. reflexivity.
  - cbn [rbind]. rewrite update_leaf. cbn in Ed. rewrite Ed. reflexivity.
  - set (rc := cb_t rb) in *. set (cc := cb_t cb) in *. set (d0 := Blk rc cc a rs cs [] None : block G).
    assert (E : rfor 0 cs (fun j b => rfor 0 rs (fun i b => match nth_error (map build_from_h2matrix_block l') (i + j * rs) with
        | Some p => let* s := p in set_son b (i + j * rs) s | None => Err EBounds end) b) (new_block rc cc false rs cs) =
      Ok (Blk rc cc false rs cs (map Some l) None)).
    { rewrite <- (grid_of d0 l rs cs Hl) at 1.
      rewrite <- (fill_grid' _ rc cc false rs cs (fun i j => match nth_error (map build_from_h2matrix_block l') (i + j * rs) with Some p => p | None => Err EBounds end)).
      - apply rfor_ext. intros j b0 _. apply rfor_ext. intros i b1 _. destruct (nth_error _ (i + j * rs)); reflexivity.
      - intros i j Hi Hj. rewrite nth_error_map. destruct (nth_ex l' (i + j * rs)) as [s Es]; [rewrite Hl'; apply pos_lt; assumption|]. rewrite Es. cbn [option_map].
        destruct (nth_ex l (i + j * rs)) as [x Ex]; [rewrite Hl; apply pos_lt; assumption|]. rewrite (nth_error_nth _ _ _ Ex).
        pose proof (nth_error_In _ _ Ex) as Hin. apply (IH x).
        + apply in_map. exact Hin.
        + eapply block_sub; [exact T|]. cbn. apply in_map. exact Hin.
        + intros y Hy. apply Ha. apply in_bnodes. right. exists x. split; [cbn; apply in_map; exact Hin|exact Hy].
        + eapply Hs; eassumption. }
    rewrite E. cbn [rbind]. rewrite update_grid; [|exact Hl|].
    + assert (a = false) as ->.
      { destruct a; [|reflexivity]. pose proof (Ha _ (bnodes_refl _) eq_refl) as E0. cbn in E0. destruct l; [congruence|discriminate]. }
      rewrite Ed. cbn [bnodes length]. do 3 f_equal. change (flat_map (fun o => match o with Some s => bnodes s | None => [] end) (map Some l)) with (flat_map (ol bnodes) (map Some l)). rewrite flat_some. reflexivity.
    + intros s Hs0. apply T. apply in_bnodes. right. exists s. split; [cbn; apply in_map; exact Hs0|apply bnodes_refl].
Qed.

(** Block trees of [build_strict_block] *)
Lemma cover_sons (t : cptr G) (cb : cbx) : cbcover t cb -> cb_son cb = [] <-> c_sons (cp_c t) = [].
Proof.
  intros Hc. pose proof (cover_t _ _ Hc) as Et. destruct Hc as [cb El _]. unfold cp_sons in El. destruct (cb_son cb), (c_sons (cp_c (cb_t cb))); cbn in El; split; congruence.
Qed.
Lemma b2m_strict A b : forall h, b2m b h -> block_tree b -> (forall x, In x (bnodes b) -> strict_node A x) -> h2fit h ->
  cbcover (b_rc b) (h2_rb h) -> cbcover (b_cc b) (h2_cb h) -> h2strict h.
Proof.
  induction b as [rc cc a rs cs son ds IH] using block_rect'. intros h H T HN Hf C1 C2. destruct (HN _ (bnodes_refl _)) as ((_ & _ & Fc & Fd) & Fr).
  cbn [b_rc b_cc b_a b_son] in *.
  inversion H as [rb cb ? A' d|rb cb ? F d|rb cb ? ? ? l ? l' d Hne Hl Hl' Hs]; subst; cbn [h2_rb h2_cb] in *.
  - constructor.
  - constructor; [apply (cover_sons _ _ C1)|apply (cover_sons _ _ C2)]; apply (Fc eq_refl eq_refl).
  - assert (Hne' : map Some l <> []) by (destruct l; [congruence|discriminate]). destruct (Fd Hne') as (Ers & Ecs). cbn [b_rsons b_csons b_rc b_cc] in *.
    revert Ers Ecs. inversion Hf as [| | |? ? ? R C ? B1 B2 El Hsn]; subst. intros Ers Ecs.
    assert (Hpart : forall (rb : cbx) R i s q, cbcover (cb_t rb) rb -> bsplit rb R -> length R = Nat.max 1 (cp_sons (cb_t rb)) -> nth_error R i = Some s -> nth_error (refine (cb_t rb)) i = Some q ->
      cb_t s = q -> part_of rb (length R) i s /\ cbcover (cb_t s) s).
    { clear. intros rb R i s q Hc B El Hs Hq Et. destruct Hc as [rb Hl Hson]. destruct B as [->|[Hn ->]].
      - destruct i as [|[|i]]; try discriminate. injection Hs as <-. split; [|constructor; assumption].
        unfold refine in Hq. destruct (Nat.eqb_spec (cp_sons (cb_t rb)) 0) as [E0|N0].
        + left. split; [|split; reflexivity]. destruct (cb_son rb); [reflexivity|cbn in Hl; lia].
        + exfalso. apply cp_eqb_split in Hq. rewrite <- Et in Hq. rewrite cp_eqb_refl in Hq. discriminate.
      - split; [right; split; [reflexivity|exact Hs]|]. destruct (Hson i s Hs) as (t' & _ & Hc'). rewrite (cover_t _ _ Hc'). exact Hc'. }
    apply h2strict_super. intros i j s Hi Hj Hks. destruct (Hsn i j s Hi Hj Hks) as (G1 & G2 & G3).
    destruct (nth_ex l (i + j * length R)) as [x Hx]; [rewrite Hl; apply pos_lt; assumption|]. pose proof (Hs _ _ _ Hx Hks) as Hb. destruct (b2m_cl _ _ Hb) as (K1 & K2).
    destruct (Fr i j x) as (R1 & R2); [exact Hi|cbn; rewrite nth_error_map, Hx; reflexivity|]. cbn [b_rc b_cc] in R1, R2.
    destruct (Hpart rb R i _ _ C1 B1 Ers G1 R1 K1) as (P1 & Q1). destruct (Hpart cb C j _ _ C2 B2 Ecs G2 R2 K2) as (P2 & Q2).
    split; [exact P1|]. split; [exact P2|]. apply (IH x); auto.
    + apply in_map. eapply nth_error_In. exact Hx.
    + eapply block_sub; [exact T|]. cbn. apply in_map. eapply nth_error_In. exact Hx.
    + intros y Hy. apply HN. apply in_bnodes. right. exists x. split; [cbn; apply in_map; eapply nth_error_In; exact Hx|exact Hy].
    + rewrite <- K1. exact Q1.
    + rewrite <- K2. exact Q2.
Qed.

(** ** Copies *)
Definition hsz (R : list cbx) (i : nat) : nat := at_ cb_size R i.

Lemma vsw_eq M (rb cb rb' cb' : cbx) (Su : nat -> nat -> K) p q : cb_k rb' = cb_k rb -> cb_k cb' = cb_k cb ->
  (forall r, r < cb_k rb -> M rb' p r = M rb p r) -> (forall c, c < cb_k cb -> M cb' q c = M cb q c) -> vsw M rb' cb' Su p q = vsw M rb cb Su p q.
Proof.
  intros E1 E2 H1 H2. unfold vsw. rewrite E1, E2. apply sum_ext. intros r Hr. apply sum_ext. intros c Hc. rewrite H1, H2 by assumption. reflexivity.
Qed.

Lemma wp_cloneh D m0 h : forall (rb cb : cbx) m X (Dm : nat -> nat -> K),
  h2fit h -> cbok (h2_rb h) -> cbok (h2_cb h) -> ceq m0 m0 (h2_rb h) rb -> ceq m0 m0 (h2_cb h) cb -> h2rep (cbmat m0) m h Dm -> lm D m X -> incl (h2mats h) X ->
  wp TT TT (clone_h2matrix h rb cb) m (fun h' m' => (h2rep (cbmat m0) m' h' Dm /\ h2sim h h') /\ made_h2 D m X rb cb h' m').
Proof.
  induction h as [h IH] using h2_rect'. intros rb cb m X Dm Hf K1 K2 Q1 Q2 HR HL HI.
  destruct (ceq_t _ _ _ _ Q1) as (T1 & T2 & _). destruct (ceq_t _ _ _ _ Q2) as (U1 & U2 & _).
  inversion Hf as [rb0 cb0 A ds E1 E2|rb0 cb0 F ds E1 E2|rb0 cb0 ds|rb0 cb0 l R C ds S1 S2 El Hsn]; subst h; cbn [h2_rb h2_cb] in *;
    cbn [clone_h2matrix]; rewrite T1, U1, !cp_eqb_refl; cbn [passert bind].
  - inversion HR as [? ? ? Su ? ? F1 F2 F3 F4| | |]; subst. unfold new_uniform_h2matrix. cbn [bind]. apply wp_bind, wp_bind, wp_bind. eapply wp_init_kb; [exact HL|]. intros B m1 EB HL1 HK1. cbn [wp h2_u bind].
    assert (HA : In A X) by (apply HI; left; reflexivity). pose proof (lm_own _ _ _ A HL HA) as (_ & NA & _).
    apply wp_bind. eapply (wp_copy_lm D m1 (B :: X) false A B B Su); [exact HL1|left; reflexivity|apply (lm_own _ _ _ B HL1); left; reflexivity|auto|reflexivity| | | | |].
    + eapply mval_kb; [exact F3|exact HK1|exact NA|intros []].
    + eapply lm_neq; [exact HL1|exact HA].
    + rewrite EB. cbn. lia.
    + rewrite EB. cbn. lia.
    + intros m2 HV HL2 HK2 _. cbn [wp update_h2matrix bind]. split; [|apply made_u; [exact EB|exact HL2|eapply kb_trans; [exact HK1|exact HK2|auto|]; intros b [<-|[]]; rewrite EB; cbn; auto]].
      split; [|constructor]. apply (h2rep_u _ _ _ _ _ Su); [rewrite EB; reflexivity|rewrite EB; reflexivity|exact HV|]. unfold cb_size in *. rewrite T1, U1. intros p q Hp Hq. rewrite F4 by assumption. symmetry.
      apply vsw_eq; [exact T2|exact U2| |]; intros; eapply ceq_mat; eassumption.
  - inversion HR as [|? ? ? ? ? F1 F2 F3| |]; subst. unfold new_full_h2matrix. cbn [bind]. apply wp_bind, wp_bind, wp_bind. eapply wp_init_kb; [exact HL|]. intros B m1 EB HL1 HK1. cbn [wp h2_f bind].
    assert (HA : In F X) by (apply HI; left; reflexivity). pose proof (lm_own _ _ _ F HL HA) as (_ & NA & _).
    apply wp_bind. eapply (wp_copy_lm D m1 (B :: X) false F B B Dm); [exact HL1|left; reflexivity|apply (lm_own _ _ _ B HL1); left; reflexivity|auto|reflexivity| | | | |].
    + eapply mval_kb; [exact F3|exact HK1|exact NA|intros []].
    + eapply lm_neq; [exact HL1|exact HA].
    + rewrite EB. cbn. rewrite T1. exact F1.
    + rewrite EB. cbn. rewrite U1. exact F2.
    + intros m2 HV HL2 HK2 _. cbn [wp update_h2matrix bind]. split; [|apply made_f; [exact EB|exact HL2|eapply kb_trans; [exact HK1|exact HK2|auto|]; intros b [<-|[]]; rewrite EB; cbn; auto]].
      split; [|constructor]. apply h2rep_f; [rewrite EB; reflexivity|rewrite EB; reflexivity|exact HV].
  - inversion HR as [| |? ? ? ? F1|]; subst. cbn [wp update_h2matrix bind new_zero_h2matrix]. split; [|apply made_0, HL]. split; [|constructor].
    apply h2rep_zero. unfold cb_size in *. rewrite T1, U1. exact F1.
  - inversion HR as [| | |? ? ? ? ? ? hs ws ? P1 P2 P3 P4 P5 P6 P7]; subst.
    assert (HRel : forall (a b : cbx) i (a' b' : cbx), ceq m0 m0 a b -> nth_error (cb_son a) i = Some a' -> nth_error (cb_son b) i = Some b' -> ceq m0 m0 a' b').
    { intros a b i a' b' Hab Ha Hb. apply (BlockP.Forall2_nth _ _ _ (ceq_sons _ _ _ _ Hab) i a' b' Ha Hb). }
    destruct (split_rel (ceq m0 m0) (fun a b Hab => proj2 (proj2 (proj2 (proj2 (ceq_t _ _ _ _ Hab))))) HRel rb0 rb R K1 S1 Q1) as (RB & B1 & B2 & B3).
    destruct (split_rel (ceq m0 m0) (fun a b Hab => proj2 (proj2 (proj2 (proj2 (ceq_t _ _ _ _ Hab))))) HRel cb0 cb C K2 S2 Q2) as (CB' & D1 & D2 & D3).
    assert (Hsub : forall i j, i < length R -> j < length C -> exists s rb1 cb1, nth_error l (i + j * length R) = Some s /\ nth_error R i = Some (h2_rb s) /\ nth_error C j = Some (h2_cb s) /\ h2fit s /\
      nth_error RB i = Some rb1 /\ nth_error CB' j = Some cb1 /\ ceq m0 m0 (h2_rb s) rb1 /\ ceq m0 m0 (h2_cb s) cb1 /\ clone_basis (K := K) rb rb0 (h2_rb s) i = Ret rb1 /\ clone_basis (K := K) cb cb0 (h2_cb s) j = Ret cb1).
    { intros i j Hi Hj. destruct (nth_ex l (i + j * length R)) as [s Es]; [rewrite El; apply pos_lt; assumption|]. destruct (Hsn i j s Hi Hj Es) as (N1 & N2 & N3).
      destruct (B3 i _ N1) as (rb1 & X1 & X2 & X3 & _). destruct (D3 j _ N2) as (cb1 & Y1 & Y2 & Y3 & _). exists s, rb1, cb1. auto 12. }
    set (prep := fun (rec : list (h2x * (cbx -> cbx -> prog K h2x))) j => bind (sget (Some rec) (j * length R)) (fun s0 => clone_basis (K := K) cb cb0 (h2_cb (fst s0)) j)).
    set (rec := map (fun s => (s, clone_h2matrix s)) l).
    set (bd := fun j (i : nat) (l' : list h2x) => match nth_error CB' j with
       | Some cb1 => si <- sget (Some rec) i ;; rb1 <- clone_basis rb rb0 (h2_rb (fst si)) i ;; s <- sget (Some rec) (i + j * length R) ;; tmp <- snd s rb1 cb1 ;; Ret (l' ++ [tmp])
       | None => Fail EBounds end).
    eapply (wp_super D m X rb cb RB CB' (length R) (length C) _ bd
      (fun i j => match nth_error l (i + j * length R), nth_error RB i, nth_error CB' j with Some s, Some rb1, Some cb1 => clone_h2matrix s rb1 cb1 | _, _, _ => Fail EBounds end)
      (fun i j s' m' => forall s, nth_error l (i + j * length R) = Some s -> h2rep (cbmat m0) m' s' (fun p q => Dm (nsum i hs + p) (nsum j ws + q)) /\ h2sim s s')); auto.
    + intros j l1 Hj. destruct (Hsub 0 j P1 Hj) as (s & rb1 & cb1 & Es & _ & _ & _ & X1 & Y1 & _ & _ & X3 & Y3). cbn [Nat.add] in Es.
      rewrite (sget_some _ _ (s, clone_h2matrix s)) by (unfold rec; rewrite nth_error_map, Es; reflexivity). cbn [bind fst]. rewrite Y3. cbn [bind]. unfold bd. rewrite Y1. reflexivity.
    + intros i j l1 Hi Hj. cbv beta. destruct (Hsub i j Hi Hj) as (s & rb1 & cb1 & Es & N1 & _ & _ & X1 & Y1 & _ & _ & X3 & Y3).
      destruct (Hsub i 0 Hi P2) as (s0 & rb1' & cb1' & Es0 & N1' & _). rewrite Nat.mul_0_l, Nat.add_0_r in Es0. assert (E0 : h2_rb s0 = h2_rb s) by congruence.
      unfold bd. rewrite Es, X1, Y1.
      rewrite (sget_some _ _ (s0, clone_h2matrix s0)) by (unfold rec; rewrite nth_error_map, Es0; reflexivity). cbn [bind fst]. rewrite E0, X3. cbn [bind].
      rewrite (sget_some _ _ (s, clone_h2matrix s)) by (unfold rec; rewrite nth_error_map, Es; reflexivity). reflexivity.
    + intros i j s m1 m2 HP Hs x Hx. destruct (HP x Hx) as (H1 & H3). split; [|exact H3]. eapply h2rep_same; [exact H1|exact Hs|apply incl_refl].
    + intros i j m1 Ls rb1 cb1 Hi Hj G1 H1 HK1 HL1 HI1. destruct (Hsub i j Hi Hj) as (s & rb1' & cb1' & Es & N1 & N2 & N3 & X1 & Y1 & X2 & Y2 & _).
      rewrite Es, G1, H1. rewrite G1 in X1. injection X1 as <-. rewrite H1 in Y1. injection Y1 as <-. pose proof (nth_error_In _ _ Es) as Ins.
      assert (Hms : incl (h2mats s) X) by (intros B HB; apply HI; cbn [h2mats app]; eapply flat_incl; eassumption).
      eapply wp_conseq; [apply (IH l s eq_refl Ins rb1 cb1 m1 Ls (fun p q => Dm (nsum i hs + p) (nsum j ws + q)))|].
      * exact N3.
      * exact (bsplit_ok _ _ _ _ K1 S1 N1).
      * exact (bsplit_ok _ _ _ _ K2 S2 N2).
      * exact X2.
      * exact Y2.
      * eapply h2rep_same; [apply P7; eassumption| |exact Hms]. eapply (same_lm D X [] []); [cbn; rewrite app_nil_r; exact HL|exact HK1|intros b []].
      * exact HL1.
      * eapply incl_tran; eassumption.
      * cbv beta. intros s' m2 (Z1 & Z2). split; [|exact Z2]. intros x Ex. injection Ex as <-. exact Z1.
    + intros l' m' d El' HP HM. split; [|exact HM].
      assert (HP' : forall i j s s', i < length R -> j < length C -> nth_error l (i + j * length R) = Some s -> nth_error l' (i + j * length R) = Some s' ->
        h2rep (cbmat m0) m' s' (fun p q => Dm (nsum i hs + p) (nsum j ws + q)) /\ h2sim s s' /\ h2rows s' = hs i /\ h2cols s' = ws j).
      { intros i j s s' Hi Hj Hs Hs'. destruct (HP i j s' Hi Hj Hs') as (H1 & H3 & H4). destruct (H1 s Hs) as (H5 & H6). split; [exact H5|]. split; [exact H6|].
        destruct (Hsub i j Hi Hj) as (x & rb1 & cb1 & Ex & _ & _ & _ & X1 & Y1 & X2 & Y2 & _). assert (x = s) by congruence. subst x.
        destruct (P6 i j s Hi Hj Hs) as (W1 & W2). rewrite <- W1, <- W2. unfold h2rows, h2cols, cb_size. rewrite X1 in H3. injection H3 as <-. rewrite Y1 in H4. injection H4 as <-.
        destruct (ceq_t _ _ _ _ X2) as (-> & _). destruct (ceq_t _ _ _ _ Y2) as (-> & _). auto. }
      assert (Hex : forall k s', nth_error l' k = Some s' -> exists i j s, i < length R /\ j < length C /\ k = i + j * length R /\ nth_error l k = Some s).
      { intros k s' Hk. destruct (flat_index k (length R) (length C)) as (i & j & Hi & Hj & ->); [rewrite <- El'; eapply nth_lt; exact Hk|].
        destruct (nth_ex l (i + j * length R)) as [s Es]; [rewrite El; apply pos_lt; assumption|]. exists i, j, s. auto. }
      split.
      * apply (h2rep_super _ _ _ _ _ _ _ _ hs ws); auto; [unfold cb_size in *; congruence|unfold cb_size in *; congruence| |].
        -- intros i j s' Hi Hj Hs'. destruct (nth_ex l (i + j * length R)) as [s Es]; [rewrite El; apply pos_lt; assumption|]. destruct (HP' i j s s' Hi Hj Es Hs') as (_ & _ & H1). exact H1.
        -- intros i j s' Hi Hj Hs'. destruct (nth_ex l (i + j * length R)) as [s Es]; [rewrite El; apply pos_lt; assumption|]. apply (HP' i j s s' Hi Hj Es Hs').
      * constructor. apply Forall2_nth_error; [lia|]. intros k s s' Hs Hs'. destruct (Hex k s' Hs') as (i & j & _ & Hi & Hj & -> & _). apply (HP' i j s s' Hi Hj Hs Hs').
Qed.

Lemma cshape_inv (a b : cbx) : cshape a b -> cb_t b = cb_t a /\ length (cb_son b) = length (cb_son a) /\
  (forall i s s', nth_error (cb_son a) i = Some s -> nth_error (cb_son b) i = Some s' -> cshape s s').
Proof. intros []. auto. Qed.

Lemma wp_clonestr D h : forall (rb cb : cbx) m X M,
  h2fit h -> cbok (h2_rb h) -> cbok (h2_cb h) -> cshape (h2_rb h) rb -> cshape (h2_cb h) cb -> lm D m X ->
  wp TT TT (clonestructure_h2matrix h rb cb) m (fun h' m' => (h2rep M m' h' (fun _ _ => f0) /\ h2sim h h') /\ made_h2 D m X rb cb h' m').
Proof.
  induction h as [h IH] using h2_rect'. intros rb cb m X M Hf K1 K2 Q1 Q2 HL.
  destruct (cshape_inv _ _ Q1) as (T1 & T2 & T3). destruct (cshape_inv _ _ Q2) as (U1 & U2 & U3).
  inversion Hf as [rb0 cb0 A ds E1 E2|rb0 cb0 F ds E1 E2|rb0 cb0 ds|rb0 cb0 l R C ds S1 S2 El Hsn]; subst h; cbn [h2_rb h2_cb] in *;
    cbn [clonestructure_h2matrix].
  - unfold new_uniform_h2matrix. cbn [bind]. apply wp_bind, wp_bind, wp_bind. eapply wp_init_kb; [exact HL|]. intros B m1 EB HL1 HK1. cbn [wp h2_u bind].
    apply wp_bind. eapply (wp_clear_lm D m1 (B :: X) B); [exact HL1|left; reflexivity|].
    intros m2 HV HL2 HK2. cbn [wp update_h2matrix bind]. split; [|apply made_u; [exact EB|exact HL2|eapply kb_trans; [exact HK1|exact HK2|auto|]; intros b [<-|[]]; rewrite EB; cbn; auto]].
    split; [|constructor]. apply (h2rep_u _ _ _ _ _ (fun _ _ => f0)); [rewrite EB; reflexivity|rewrite EB; reflexivity|exact HV|]. intros p q Hp Hq. unfold vsw. symmetry.
    apply (sum_0 L). intros r _. apply (sum_0 L). intros c _. ring.
  - unfold new_full_h2matrix. cbn [bind]. apply wp_bind, wp_bind, wp_bind. eapply wp_init_kb; [exact HL|]. intros B m1 EB HL1 HK1. cbn [wp h2_f bind].
    apply wp_bind. eapply (wp_clear_lm D m1 (B :: X) B); [exact HL1|left; reflexivity|].
    intros m2 HV HL2 HK2. cbn [wp update_h2matrix bind]. split; [|apply made_f; [exact EB|exact HL2|eapply kb_trans; [exact HK1|exact HK2|auto|]; intros b [<-|[]]; rewrite EB; cbn; auto]].
    split; [|constructor]. apply h2rep_f; [rewrite EB; reflexivity|rewrite EB; reflexivity|exact HV].
  - cbn [wp update_h2matrix bind new_zero_h2matrix]. split; [|apply made_0, HL]. split; [|constructor]. apply h2rep_zero. reflexivity.
  - destruct (split_rel cshape (fun a b Hab => proj1 (proj2 (cshape_inv _ _ Hab))) (fun a b i a' b' Hab => proj2 (proj2 (cshape_inv _ _ Hab)) i a' b') rb0 rb R K1 S1 Q1) as (RB & B1 & B2 & B3).
    destruct (split_rel cshape (fun a b Hab => proj1 (proj2 (cshape_inv _ _ Hab))) (fun a b i a' b' Hab => proj2 (proj2 (cshape_inv _ _ Hab)) i a' b') cb0 cb C K2 S2 Q2) as (CB' & D1 & D2 & D3).
    pose proof (bsplit_pos _ _ S1) as P1. pose proof (bsplit_pos _ _ S2) as P2.
    assert (Hsub : forall i j, i < length R -> j < length C -> exists s rb1 cb1, nth_error l (i + j * length R) = Some s /\ nth_error R i = Some (h2_rb s) /\ nth_error C j = Some (h2_cb s) /\ h2fit s /\
      nth_error RB i = Some rb1 /\ nth_error CB' j = Some cb1 /\ cshape (h2_rb s) rb1 /\ cshape (h2_cb s) cb1 /\ sub_basis (K := K) rb (cb_t (h2_rb s)) (cb_t rb0) (length R) i = Ret rb1 /\ sub_basis (K := K) cb (cb_t (h2_cb s)) (cb_t cb0) (length C) j = Ret cb1).
    { intros i j Hi Hj. destruct (nth_ex l (i + j * length R)) as [s Es]; [rewrite El; apply pos_lt; assumption|]. destruct (Hsn i j s Hi Hj Es) as (N1 & N2 & N3).
      destruct (B3 i _ N1) as (rb1 & X1 & X2 & _ & X3). destruct (D3 j _ N2) as (cb1 & Y1 & Y2 & _ & Y3). exists s, rb1, cb1. auto 12. }
    eapply (wp_super D m X rb cb RB CB' (length R) (length C) _ _
      (fun i j => match nth_error l (i + j * length R), nth_error RB i, nth_error CB' j with Some s, Some rb1, Some cb1 => clonestructure_h2matrix s rb1 cb1 | _, _, _ => Fail EBounds end)
      (fun i j s' m' => forall s, nth_error l (i + j * length R) = Some s -> h2rep M m' s' (fun _ _ => f0) /\ h2sim s s')); auto.
    + intros j l1 Hj. reflexivity.
    + intros i j l1 Hi Hj. cbv beta. destruct (Hsub i j Hi Hj) as (s & rb1 & cb1 & Es & N1 & _ & _ & X1 & Y1 & _ & _ & X3 & Y3). rewrite Es, X1, Y1.
      rewrite (sget_some _ _ (s, clonestructure_h2matrix s)) by (rewrite nth_error_map, Es; reflexivity). cbn [bind fst]. rewrite X3. cbn [bind]. rewrite Y3. reflexivity.
    + intros i j s m1 m2 HP Hs x Hx. destruct (HP x Hx) as (H1 & H3). split; [|exact H3]. eapply h2rep_same; [exact H1|exact Hs|apply incl_refl].
    + intros i j m1 Ls rb1 cb1 Hi Hj G1 H1 HK1 HL1 HI1. destruct (Hsub i j Hi Hj) as (s & rb1' & cb1' & Es & N1 & N2 & N3 & X1 & Y1 & X2 & Y2 & _).
      rewrite Es, G1, H1. rewrite G1 in X1. injection X1 as <-. rewrite H1 in Y1. injection Y1 as <-. pose proof (nth_error_In _ _ Es) as Ins.
      eapply wp_conseq; [apply (IH l s eq_refl Ins rb1 cb1 m1 Ls M)|].
      * exact N3.
      * exact (bsplit_ok _ _ _ _ K1 S1 N1).
      * exact (bsplit_ok _ _ _ _ K2 S2 N2).
      * exact X2.
      * exact Y2.
      * exact HL1.
      * cbv beta. intros s' m2 (Z1 & Z2). split; [|exact Z2]. intros x Ex. injection Ex as <-. exact Z1.
    + intros l' m' d El' HP HM. split; [|exact HM].
      assert (HP' : forall i j s s', i < length R -> j < length C -> nth_error l (i + j * length R) = Some s -> nth_error l' (i + j * length R) = Some s' ->
        h2rep M m' s' (fun _ _ => f0) /\ h2sim s s' /\ h2rows s' = hsz R i /\ h2cols s' = hsz C j).
      { intros i j s s' Hi Hj Hs Hs'. destruct (HP i j s' Hi Hj Hs') as (H1 & H3 & H4). destruct (H1 s Hs) as (H5 & H6). split; [exact H5|]. split; [exact H6|].
        destruct (Hsub i j Hi Hj) as (x & rb1 & cb1 & Ex & N1 & N2 & _ & X1 & Y1 & X2 & Y2 & _). assert (x = s) by congruence. subst x. unfold hsz.
        rewrite (at_nth _ _ _ _ N1), (at_nth _ _ _ _ N2). unfold h2rows, h2cols, cb_size. rewrite X1 in H3. injection H3 as <-. rewrite Y1 in H4. injection H4 as <-.
        destruct (cshape_inv _ _ X2) as (-> & _). destruct (cshape_inv _ _ Y2) as (-> & _). auto. }
      split.
      * apply (h2rep_super _ _ _ _ _ _ _ _ (hsz R) (hsz C)); auto; [etransitivity; [apply (bsplit_sum _ _ K1 S1)|]; unfold cb_size; congruence|etransitivity; [apply (bsplit_sum _ _ K2 S2)|]; unfold cb_size; congruence| |].
        -- intros i j s' Hi Hj Hs'. destruct (nth_ex l (i + j * length R)) as [s Es]; [rewrite El; apply pos_lt; assumption|]. destruct (HP' i j s s' Hi Hj Es Hs') as (_ & _ & H1). exact H1.
        -- intros i j s' Hi Hj Hs'. destruct (nth_ex l (i + j * length R)) as [s Es]; [rewrite El; apply pos_lt; assumption|]. apply (HP' i j s s' Hi Hj Es Hs').
      * constructor. apply Forall2_nth_error; [lia|]. intros k s s' Hs Hs'. destruct (flat_index k (length R) (length C)) as (i & j & Hi & Hj & ->); [rewrite <- El; eapply nth_lt; exact Hs|].
        apply (HP' i j s s' Hi Hj Hs Hs').
Qed.

(** ** Clearing and scaling *)
Lemma fit_leaves h s : h2fit h -> In s (h2leaves h) -> h2fit s.
Proof.
  revert s. induction h as [h IH] using h2_rect'. intros s Hf Hs. inversion Hf as [| | |rb cb l R C ds S1 S2 El Hsn]; subst; cbn in Hs.
  1-3: destruct Hs as [<-|[]]; exact Hf.
  apply in_flat_map in Hs as (t & Ht & Hs). apply (IH l t eq_refl Ht s); auto.
  apply In_nth_error in Ht as [k Hk]. destruct (flat_index k (length R) (length C)) as (i & j & Hi & Hj & ->); [rewrite <- El; eapply nth_lt; exact Hk|]. apply (Hsn i j t Hi Hj Hk).
Qed.
Definition leafvals (m : mem K) h (g : mat -> nat -> nat -> K) : Prop :=
  (forall A, h2_u h = Some A -> mval m A (g A)) /\ (forall F, h2_f h = Some F -> mval m F (g F)).
Lemma leafvals_same X m m' h (g : mat -> nat -> nat -> K) : leafvals m h g -> same (h2mats h ++ X) m m' -> leafvals m' h g.
Proof.
  intros (H1 & H3) Hs. split; intros A EA; (eapply same_mval; [|exact Hs|]); auto; destruct h as [rb cb u f son rs cs ds]; cbn in EA; subst; rewrite h2mats_eq, !in_app_iff; left; [left|right; left]; left; reflexivity.
Qed.
Lemma rep_scale M m m' alpha h : forall (Dm : nat -> nat -> K), h2rep M m h Dm -> (forall s, In s (h2leaves h) -> leafvals m' s (fun A i j => mfun m A i j * alpha)%F) ->
  h2rep M m' h (fun p q => alpha * Dm p q)%F.
Proof.
  intros Dm HR. induction HR as [rb cb A Su ds D H1 H3 H4 H5|rb cb F ds D H1 H3 H4|rb cb ds D H1|rb cb l rsons csons ds hs ws D P1 P2 P3 P4 P5 P6 P7 IH]; intros HS.
  - apply (h2rep_u _ _ _ _ _ (fun i j => alpha * Su i j)%F); auto.
    + eapply mval_ext; [apply (proj1 (HS (H2 rb cb (Some A) None None 0 0 ds) (or_introl eq_refl)) A eq_refl)|]. intros i j Hi Hj. cbv beta. rewrite (mfun_mval _ _ _ H4) by assumption. ring.
    + intros p q Hp Hq. rewrite H5 by assumption. unfold vsw. rewrite <- (sum_mul_l L). apply sum_ext. intros r _. rewrite <- (sum_mul_l L). apply sum_ext. intros c _. ring.
  - apply h2rep_f; auto. eapply mval_ext; [apply (proj2 (HS (H2 rb cb None (Some F) None 0 0 ds) (or_introl eq_refl)) F eq_refl)|]. intros i j Hi Hj. cbv beta. rewrite (mfun_mval _ _ _ H4) by assumption. ring.
  - apply h2rep_zero. intros p q Hp Hq. rewrite H1 by assumption. ring.
  - apply (h2rep_super _ _ _ _ _ _ _ _ hs ws); auto. intros i j s Hi Hj Hs. apply (IH i j s Hi Hj Hs). intros t Ht. apply HS. cbn [h2leaves]. apply in_flat_map. exists s. split; [eapply nth_error_In; exact Hs|exact Ht].
Qed.
Lemma rep_clear M m' h : h2fit h -> cbok (h2_rb h) -> cbok (h2_cb h) -> (forall s, In s (h2leaves h) -> leafvals m' s (fun A i j => f0)) -> h2rep M m' h (fun p q => f0).
Proof.
  induction h as [h IH] using h2_rect'. intros Hf K1 K2 HS. inversion Hf as [rb0 cb0 A ds E1 E2|rb0 cb0 F ds E1 E2|rb0 cb0 ds|rb0 cb0 l R C ds S1 S2 El Hsn]; subst h; cbn [h2_rb h2_cb h2leaves] in *.
  - apply (h2rep_u _ _ _ _ _ (fun _ _ => f0)); [assumption|assumption|apply (proj1 (HS _ (or_introl eq_refl)) A eq_refl)|]. intros p q Hp Hq. unfold vsw. symmetry.
    apply (sum_0 L). intros r _. apply (sum_0 L). intros c _. ring.
  - apply h2rep_f; [assumption|assumption|]. apply (proj2 (HS _ (or_introl eq_refl)) F eq_refl).
  - apply h2rep_zero. reflexivity.
  - apply (h2rep_super _ _ _ _ _ _ _ _ (hsz R) (hsz C)); auto.
    + eapply bsplit_pos. exact S1.
    + eapply bsplit_pos. exact S2.
    + apply bsplit_sum; assumption.
    + apply bsplit_sum; assumption.
    + intros i j s Hi Hj Hs. destruct (Hsn i j s Hi Hj Hs) as (N1 & N2 & _). unfold hsz. rewrite (at_nth _ _ _ _ N1), (at_nth _ _ _ _ N2). auto.
    + intros i j s Hi Hj Hs. destruct (Hsn i j s Hi Hj Hs) as (N1 & N2 & N3). pose proof (nth_error_In _ _ Hs) as Ins. apply (IH l s eq_refl Ins); auto.
      * exact (bsplit_ok _ _ _ _ K1 S1 N1).
      * exact (bsplit_ok _ _ _ _ K2 S2 N2).
      * intros t Ht. apply HS. apply in_flat_map. exists s. auto.
Qed.

Lemma wp_scale_lm D m Ls alpha C f (Q : unit -> mem K -> Prop) : lm D m Ls -> In C Ls -> mval m C f ->
  (forall m', mval m' C (fun i j => f i j * alpha)%F -> lm D m' Ls -> kb [mblk C] m m' -> Q tt m') -> wp TT TT (scale_amatrix alpha C) m Q.
Proof.
  intros HL HC HV HQ. destruct (lm_own _ _ _ C HL HC) as (_ & _ & W & A). eapply wp_scale_amatrix; [exact W|exact HV|apply TTw|]. intros m1 HV1 Kk.
  destruct (lm_writep D m m1 _ C C _ HL HC (fun a Ha => Ha) Kk HV1) as [H1 H3]. apply HQ; assumption.
Qed.

Lemma wp_scaleh D m alpha h X M (Dm : nat -> nat -> K) (Q : unit -> mem K -> Prop) : h2fit h -> lm D m (h2mats h ++ X) -> h2rep M m h Dm ->
  (forall m', h2rep M m' h (fun p q => alpha * Dm p q)%F -> lm D m' (h2mats h ++ X) -> kb (map mblk (h2mats h)) m m' -> Q tt m') ->
  wp TT TT (scale_h2matrix alpha h) m Q.
Proof.
  intros Hf HL HR HQ. unfold scale_h2matrix.
  eapply wp_conseq; [apply (wp_each D _ X h (fun m1 s => leafvals m1 s (mfun m)) (fun m1 s => leafvals m1 s (fun A i j => mfun m A i j * alpha)%F))|].
  - intros s m1 m2 _ H1 H3. eapply leafvals_same; eassumption.
  - intros s m1 m2 _ H1 H3. eapply leafvals_same; eassumption.
  - intros s m1 Ls Hs Hn (V1 & V2) HL1 HI. pose proof (fit_leaves _ _ Hf Hs) as Hf1. inversion Hf1 as [rb0 cb0 A ds E1 E2|rb0 cb0 F ds E1 E2|rb0 cb0 ds|rb0 cb0 l R C ds S1 S2 El Hsn]; subst s; cbn [h2_u h2_f h2_son h2mats app] in *; try discriminate.
    + eapply wp_scale_lm; [exact HL1|left; reflexivity|apply V1; reflexivity|]. intros m2 HV HL2 HK. split; [split; intros B EB; [injection EB as <-; exact HV|discriminate]|]. auto.
    + eapply wp_scale_lm; [exact HL1|left; reflexivity|apply V2; reflexivity|]. intros m2 HV HL2 HK. split; [split; intros B EB; [discriminate|injection EB as <-; exact HV]|]. auto.
    + cbn [wp]. split; [split; intros B EB; discriminate|]. split; [exact HL1|apply kb_refl].
  - apply fit_shape, Hf.
  - apply incl_refl.
  - intros s Hs. assert (HV : forall A g, mval m A g -> mval m A (mfun m A)) by (intros A g Hg; eapply mval_ext; [exact Hg|]; intros i j Hi Hj; symmetry; apply (mfun_mval _ _ _ Hg); assumption).
    clear -HR Hs HV. revert s Hs. induction HR as [rb cb A Su ds D H1 H3 H4 H5|rb cb F ds D H1 H3 H4|rb cb ds D H1|rb cb l rsons csons ds hs ws D P1 P2 P3 P4 P5 P6 P7 IH]; intros s Hs; cbn in Hs.
    + destruct Hs as [<-|[]]. split; cbn; intros B EB; [injection EB as <-; eapply HV; exact H4|discriminate].
    + destruct Hs as [<-|[]]. split; cbn; intros B EB; [discriminate|injection EB as <-; eapply HV; exact H4].
    + destruct Hs as [<-|[]]. split; cbn; intros B EB; discriminate.
    + apply in_flat_map in Hs as (t & Ht & Hs). apply In_nth_error in Ht as [k Hk]. destruct (flat_index k rsons csons) as (i & j & Hi & Hj & ->); [rewrite <- P3; eapply nth_lt; exact Hk|].
      apply (IH i j t Hi Hj Hk s Hs).
  - exact HL.
  - apply incl_refl.
  - cbv beta. intros [] m' (H1 & H3 & H4). apply HQ; [|exact H3|exact H4]. eapply rep_scale; eassumption.
Qed.
Lemma wp_clearh D m h X (Q : unit -> mem K -> Prop) : h2fit h -> cbok (h2_rb h) -> cbok (h2_cb h) -> lm D m (h2mats h ++ X) ->
  (forall m', (forall M, h2rep M m' h (fun p q => f0)) -> lm D m' (h2mats h ++ X) -> kb (map mblk (h2mats h)) m m' -> Q tt m') ->
  wp TT TT (clear_h2matrix h) m Q.
Proof.
  intros Hf K1 K2 HL HQ. unfold clear_h2matrix.
  eapply wp_conseq; [apply (wp_each D _ X h (fun m1 s => True) (fun m1 s => leafvals m1 s (fun A i j => f0)))|].
  - auto.
  - intros s m1 m2 _ H1 H3. eapply leafvals_same; eassumption.
  - intros s m1 Ls Hs Hn _ HL1 HI. pose proof (fit_leaves _ _ Hf Hs) as Hf1. inversion Hf1 as [rb0 cb0 A ds E1 E2|rb0 cb0 F ds E1 E2|rb0 cb0 ds|rb0 cb0 l R C ds S1 S2 El Hsn]; subst s; cbn [h2_u h2_f h2_son h2mats app] in *; try discriminate.
    + eapply wp_clear_lm; [exact HL1|left; reflexivity|]. intros m2 HV HL2 HK. split; [split; intros B EB; [injection EB as <-; exact HV|discriminate]|]. auto.
    + eapply wp_clear_lm; [exact HL1|left; reflexivity|]. intros m2 HV HL2 HK. split; [split; intros B EB; [discriminate|injection EB as <-; exact HV]|]. auto.
    + cbn [wp]. split; [split; intros B EB; discriminate|]. split; [exact HL1|apply kb_refl].
  - apply fit_shape, Hf.
  - apply incl_refl.
  - auto.
  - exact HL.
  - apply incl_refl.
  - cbv beta. intros [] m' (H1 & H3 & H4). apply HQ; [|exact H3|exact H4]. intros M. apply rep_clear; assumption.
Qed.
End P.
