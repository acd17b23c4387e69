(** * Proofs about text files: reading a submatrix *)
From Coq Require Import NArith Ascii String Arith Lia Bool List.
From Verif Require Import Fld Ord Prog Arr View Spec Loop Cluster Block BlockP Amatrix AmatrixP AmatrixP2 Rkmatrix RkSpec RkP Hmatrix HmSpec HmP HmP4 HmP5 HmP6
  Hlib HlibSpec HlibP HlibP2 HlibP3.
Import ListNotations.

Section P4.
Context {K : fops} {G : ofops} (ft : ftext K).
Implicit Types (m : mem K) (h : hmatrix G) (d : hdata K).
Local Notation hmx := (hmatrix G).
Local Notation hd := (hdata K).

(** Numbers and entries can be written and read. *)
Inductive dgood : hd -> Prop :=
| dgood_rk rows cols k A B : u32 k -> (forall i j, i < rows -> j < k -> ft_good ft (A i j)) -> (forall i j, i < cols -> j < k -> ft_good ft (B i j)) ->
    dgood (DRk rows cols k A B)
| dgood_full rows cols F : (forall i j, i < rows -> j < cols -> ft_good ft (F i j)) -> dgood (DFull rows cols F)
| dgood_sup rows cols rs cs l : u32 rs -> u32 cs -> (forall s, In s l -> dgood s) -> dgood (DSup rows cols rs cs l).

Lemma u32_le a b : a <= b -> u32 b -> u32 a.
Proof. unfold u32. intros H1 H2. lia. Qed.

Lemma wp_update_super m (rc cc : cptr G) rs cs l (Q : hmx -> mem K -> Prop) : List.length l = rs * cs -> (forall s, In s l -> hdesc_ok s) ->
  Q (HM rc cc None None (Some l) rs cs (1 + List.length (flat_map hnodes l))) m ->
  wp TT TT (update_hmatrix (new_super_hmatrix rc cc rs cs l)) m Q.
Proof.
  intros Hl Hd HQ. cbn [update_hmatrix new_super_hmatrix]. apply wp_bind.
  apply (wp_sonloop (fun k (ds : nat) m1 => m1 = m /\ ds = 1 + List.length (flat_map hnodes (firstn k l)))).
  - split; reflexivity.
  - intros k d m1 Hk [-> ->]. destruct (nth_ex l k) as [s Hs]; [lia|]. rewrite (sget_some _ _ _ Hs). cbn [bind wp]. split; [reflexivity|].
    rewrite Nat.add_1_r. rewrite (firstn_S_nth l k s Hs), flat_map_app, app_length. cbn [flat_map]. rewrite app_nil_r.
    rewrite (Hd s (nth_error_In _ _ Hs) s) by (destruct s; left; reflexivity). lia.
  - intros d m1 [-> ->]. cbn [wp]. rewrite <- Hl, firstn_all. exact HQ.
Qed.
Lemma hdesc_super (rc cc : cptr G) rs cs l : (forall s, In s l -> hdesc_ok s) ->
  hdesc_ok (HM rc cc None None (Some l) rs cs (1 + List.length (flat_map hnodes l))).
Proof.
  intros Hd s Hs. cbn [hnodes] in Hs. destruct Hs as [<-|Hs]; [reflexivity|]. apply in_flat_map in Hs. destruct Hs as (s' & Hs' & Hin). apply (Hd s' Hs' s Hin).
Qed.

(** A leaf has the right properties. *)
Lemma rinfo_leaf m (rp cp : list nat) p q r f rs cs d : let h := HM (pref rp p) (pref cp q) r f None rs cs 1 : hmx in
  content m h d -> hstr m h -> rinfo m h d rp cp p q.
Proof.
  intros h Hc Hs. split; [reflexivity|]. split; [reflexivity|]. split; [exact Hc|]. split; [|split; [|split; [|split; [exact Hs|]]]].
  - intros s [<-|[]]. split; [exists [], p|exists [], q]; split; reflexivity.
  - intros s l [<-|[]]. discriminate.
  - apply hplaced_leaf. reflexivity.
  - intros s [<-|[]]. reflexivity.
Qed.

Definition rres m m' (rp cp : list nat) (rc cc : option ptree) (ridx cidx : nat) (u v : shape) (d : hd) (h : hmx) (p q : ptree) : Prop :=
  pfit p u ridx /\ pfit q v cidx /\ poext rc p /\ poext cc q /\ rinfo m' h d rp cp p q /\ NoDup (hblocks h) /\
  (forall b, In b (hblocks h) -> next m <= b < next m') /\ keeps (fun a => next m <= fst a) m m'.

Lemma wp_read_rk m (rp cp : list nat) p q rows cols k A B rest : p_size p = rows -> p_size q = cols -> dgood (DRk rows cols k A B) ->
  forall Q : hmx * text -> mem K -> Prop,
  (forall h m', (forall r f son rs cs ds, h = HM (pref rp p) (pref cp q) r f son rs cs ds -> rinfo m' (HM (pref rp p) (pref cp q) r f None rs cs 1 : hmx) (DRk rows cols k A B) rp cp p q) ->
     hm_rc h = pref rp p -> hm_cc h = pref cp q -> hm_son h = None -> NoDup (hblocks h) ->
     (forall b, In b (hblocks h) -> next m <= b < next m') -> keeps (fun a => next m <= fst a) m m' -> Q (h, rest) m') ->
  wp TT TT (read_rk ft (pref rp p) (pref cp q) rows cols (uline "k = " k ++ uline "kt = " k ++ etext ft rows k A ++ etext ft cols k B ++ rest)) m Q.
Proof.
  intros Ep Eq Hg Q HQ. inversion Hg as [? ? ? ? ? Uk GA GB| |]; subst. unfold read_rk.
  rewrite (read_u_uline _ _ _ _ fmt_k Uk). cbn [bind fst snd]. rewrite (read_u_uline _ _ _ _ fmt_kt Uk). cbn [bind fst snd]. cbv zeta.
  apply wp_bind. apply wp_new_rk_h. intros r m1 S1 Ek N1 F1 K1. cbn [hm_r].
  inversion S1 as [? ? ? ? E1 E2 O| |]; subst. destruct O as (O1 & O2 & O3 & O4 & O5 & O6 & O7 & O8 & O9 & O10 & O11).
  assert (FA : next m <= mblk (rk_A r)) by (apply (F1 (mblk (rk_A r))); left; reflexivity).
  assert (FB : next m <= mblk (rk_B r)) by (apply (F1 (mblk (rk_B r))); right; left; reflexivity).
  apply wp_bind. eapply (wp_read_entries ft m1 (rk_A r) A); [exact O10|exact O6|exact E1|exact O8|exact GA|]. intros m2 V2 K2.
  apply wp_bind. eapply (wp_read_entries ft m2 (rk_B r) B); [|exact O7|exact E2|exact O9|exact GB|].
  { eapply malloc_keeps; [exact O11|exact K2|]. intros a Ha Hb. apply inm_blk in Ha, Hb. congruence. }
  intros m3 V3 K3. cbn [wp].
  assert (K13 : keeps (fun a => inm (rk_A r) a \/ inm (rk_B r) a) m1 m3).
  { eapply keeps_trans; [eapply keeps_mono; [|exact K2]; cbv beta; auto|eapply keeps_mono; [|exact K3]; cbv beta; auto]. }
  assert (V2' : mval m3 (rk_A r) A). { eapply mval_keeps; [exact V2|exact K3|]. intros a Ha Hb. apply inm_blk in Ha, Hb. congruence. }
  pose proof (proj1 K13) as N13.
  assert (S3 : hstr m3 (HM (pref rp p) (pref cp q) (Some r) None None 0 0 1 : hmx)).
  { constructor; [exact E1|exact E2|]. repeat (split; [assumption || lia|]). split; eapply mval_alloc; eassumption. }
  apply HQ; try reflexivity.
  - intros r0 f0 son rs cs ds [= <- <- <- <- <- <-]. apply rinfo_leaf; [|exact S3]. change (p_size p) with (csz (pref (G := G) rp p)). change (p_size q) with (csz (pref (G := G) cp q)).
    constructor; auto.
  - exact N1.
  - intros b Hb. specialize (F1 b Hb). lia.
  - eapply keeps_trans; [exact K1|]. eapply keeps_mono; [|exact K13]. cbv beta. intros a [Ha|Ha]; apply inm_blk in Ha; lia.
Qed.

Lemma wp_read_full m (rp cp : list nat) p q rows cols F rest : p_size p = rows -> p_size q = cols -> dgood (DFull rows cols F) ->
  forall Q : hmx * text -> mem K -> Prop,
  (forall h m', (forall r f son rs cs ds, h = HM (pref rp p) (pref cp q) r f son rs cs ds -> rinfo m' (HM (pref rp p) (pref cp q) r f None rs cs 1 : hmx) (DFull rows cols F) rp cp p q) ->
     hm_rc h = pref rp p -> hm_cc h = pref cp q -> hm_son h = None -> NoDup (hblocks h) ->
     (forall b, In b (hblocks h) -> next m <= b < next m') -> keeps (fun a => next m <= fst a) m m' -> Q (h, rest) m') ->
  wp TT TT (read_full ft (pref rp p) (pref cp q) rows cols (etext ft rows cols F ++ rest)) m Q.
Proof.
  intros Ep Eq Hg Q HQ. inversion Hg as [|? ? ? GF|]; subst. unfold read_full.
  apply wp_bind. apply wp_new_full_h. intros f m1 S1 N1 F1 K1. cbn [hm_f].
  inversion S1 as [|? ? ? ? E1 E2 O1 O2 O3 O4|]; subst.
  assert (FA : next m <= mblk f) by (apply (F1 (mblk f)); left; reflexivity).
  apply wp_bind. eapply (wp_read_entries ft m1 f F); [exact O4|exact O3|exact E1|exact E2|exact GF|]. intros m2 V2 K2. cbn [wp]. pose proof (proj1 K2) as N12.
  assert (S3 : hstr m2 (HM (pref rp p) (pref cp q) None (Some f) None 0 0 1 : hmx)).
  { constructor; try assumption; [lia|]. eapply mval_alloc; eassumption. }
  apply HQ; try reflexivity.
  - intros r0 f0 son rs cs ds [= <- <- <- <- <- <-]. apply rinfo_leaf; [|exact S3]. change (p_size p) with (csz (pref (G := G) rp p)). change (p_size q) with (csz (pref (G := G) cp q)).
    constructor; auto.
  - exact N1.
  - intros b Hb. specialize (F1 b Hb). lia.
  - eapply keeps_trans; [exact K1|]. eapply keeps_mono; [|exact K2]. cbv beta. intros a Ha; apply inm_blk in Ha; lia.
Qed.

(** The state of the loops *)
Definition stok m (rp cp : list nat) (ridx cidx : nat) (Rs Cs : list shape) (rs : nat) (l : list hd) (rl0 cl0 : list (option ptree)) (k : nat) (rl cl : list (option ptree)) (acc : list hmx) m1 : Prop :=
  List.length rl = List.length Rs /\ List.length cl = List.length Cs /\ slots ridx Rs rl /\ slots cidx Cs cl /\ sext rl0 rl /\ sext cl0 cl /\ List.length acc = k /\
  (forall i j s, i < rs -> nth_error acc (i + j * rs) = Some s -> exists e p q, nth_error l (i + j * rs) = Some e /\
     nth_error rl i = Some (Some p) /\ nth_error cl j = Some (Some q) /\ rinfo m1 s e (i :: rp) (j :: cp) p q) /\
  NoDup (flat_map hblocks acc) /\ (forall b, In b (flat_map hblocks acc) -> next m <= b < next m1) /\ keeps (fun a => next m <= fst a) m m1.

Lemma stok_step m rp cp ridx cidx Rs Cs rs l rl0 cl0 rl cl acc m1 m2 i j u v ri cj e h p q :
  stok m rp cp ridx cidx Rs Cs rs l rl0 cl0 (i + j * rs) rl cl acc m1 -> i < rs ->
  nth_error Rs i = Some u -> nth_error Cs j = Some v -> nth_error rl i = Some ri -> nth_error cl j = Some cj -> nth_error l (i + j * rs) = Some e ->
  rres m1 m2 (i :: rp) (j :: cp) ri cj (ridx + nsum i (ssz Rs)) (cidx + nsum j (ssz Cs)) u v e h p q ->
  stok m rp cp ridx cidx Rs Cs rs l rl0 cl0 (S (i + j * rs)) (lupd rl i (Some p)) (lupd cl j (Some q)) (acc ++ [h]) m2.
Proof.
  intros (H1 & H2 & H3 & H4 & H5 & H6 & H7 & H8 & H9 & H10 & H11) Hi Eu Ev Er Ec Ee (R1 & R2 & R3 & R4 & R5 & R6 & R7 & R8).
  pose proof (proj1 R8) as N12.
  assert (X1 : sext rl (lupd rl i (Some p))) by (eapply sext_upd; eassumption). assert (X2 : sext cl (lupd cl j (Some q))) by (eapply sext_upd; eassumption).
  split; [rewrite lupd_length; exact H1|]. split; [rewrite lupd_length; exact H2|].
  split; [eapply slots_upd; eassumption|]. split; [eapply slots_upd; eassumption|]. split; [eapply sext_trans; eassumption|]. split; [eapply sext_trans; eassumption|].
  split; [rewrite app_length; cbn; lia|]. split; [|split; [|split]].
  - intros i' j' s Hi' Hs. destruct (Nat.lt_ge_cases (i' + j' * rs) (List.length acc)) as [Hlt|Hge].
    + rewrite nth_error_app1 in Hs by exact Hlt. destruct (H8 i' j' s Hi' Hs) as (e' & p' & q' & A1 & A2 & A3 & A4).
      destruct (X1 _ _ A2) as (p2 & B1 & B2). destruct (X2 _ _ A3) as (q2 & C1 & C2). exists e', p2, q2. split; [exact A1|]. split; [exact B1|]. split; [exact C1|].
      eapply rinfo_keeps; [|exact R8]. eapply rinfo_ext; eassumption.
    + rewrite nth_error_app2 in Hs by exact Hge. assert (E0 : i' + j' * rs - List.length acc = 0) by (pose proof (nth_lt _ _ _ Hs) as Hx; cbn in Hx; lia).
      rewrite E0 in Hs. cbn in Hs. injection Hs as <-. assert (Ek : i' + j' * rs = i + j * rs) by lia.
      assert (Ei : i' = i /\ j' = j).
      { assert (E1 : (i' + j' * rs) mod rs = (i + j * rs) mod rs) by congruence. rewrite !Nat.mod_add, !Nat.mod_small in E1 by lia. split; [exact E1|]. subst i'. nia. }
      destruct Ei as [-> ->]. exists e, p, q. split; [exact Ee|]. split; [eapply lupd_at; exact Er|]. split; [eapply lupd_at; exact Ec|]. exact R5.
  - rewrite flat_map_app. cbn [flat_map]. rewrite app_nil_r. apply NoDup_app_intro; [exact H9|exact R6|]. intros b Hb Hb'. apply H10 in Hb. apply R7 in Hb'. lia.
  - intros b. rewrite flat_map_app, in_app_iff. cbn [flat_map]. rewrite app_nil_r. pose proof (proj1 H11). intros [Hb|Hb]; [apply H10 in Hb|apply R7 in Hb]; lia.
  - eapply keeps_trans; [exact H11|]. eapply keeps_mono; [|exact R8]. cbv beta. pose proof (proj1 H11). intros; lia.
Qed.

Lemma wp_psons m p u off Rs (Q : list (option ptree) -> mem K -> Prop) : pfit p u off -> u = Shp (ssize u) Rs ->
  (forall rl0, List.length rl0 = List.length Rs -> slots off Rs rl0 -> (p_son p = [] \/ rl0 = p_son p) -> Q rl0 m) ->
  wp TT TT (psons p (List.length Rs)) m Q.
Proof.
  intros Hp Hu HQ. unfold psons. destruct Hp as [u off|size off Rs' l A1 A2 A3 A4]; cbn [p_son] in *.
  - cbn [wp]. apply HQ; [apply repeat_length| |left; reflexivity]. intros i v p Hv Hx. apply nth_error_In, repeat_spec in Hx. discriminate.
  - injection Hu as ->. assert (Hq : Q l m) by (apply HQ; [exact A1|exact A3|right; reflexivity]). destruct l as [|o l'] eqn:El.
    + cbn in A1. rewrite <- A1. cbn [repeat wp]. exact Hq.
    + rewrite <- El in *. rewrite A1, Nat.eqb_refl. cbn [passert bind wp]. exact Hq.
Qed.

(** The complete subdivided matrix *)
Lemma rinfo_super m (rp cp : list nat) p q rl cl rs cs l (acc : list hmx) ridx cidx Rs Cs rows cols :
  0 < rs -> 0 < cs -> List.length l = rs * cs -> List.length acc = rs * cs ->
  dfits (DSup rows cols rs cs l) (Shp rows Rs) (Shp cols Cs) ->
  pfit (PT (p_size p) (p_off p) rl) (Shp rows Rs) ridx -> pfit (PT (p_size q) (p_off q) cl) (Shp cols Cs) cidx ->
  slots ridx Rs rl -> slots cidx Cs cl ->
  (forall i j s, i < rs -> nth_error acc (i + j * rs) = Some s -> exists e p q, nth_error l (i + j * rs) = Some e /\
     nth_error rl i = Some (Some p) /\ nth_error cl j = Some (Some q) /\ rinfo m s e (i :: rp) (j :: cp) p q) ->
  rinfo m (HM (pref rp p) (pref cp q) None None (Some acc) rs cs (1 + List.length (flat_map hnodes acc)) : hmx) (DSup rows cols rs cs l) rp cp
    (PT (p_size p) (p_off p) rl) (PT (p_size q) (p_off q) cl).
Proof.
  intros Hrs Hcs Hl Ha Hf Hp Hq Sr Sc H.
  destruct (pfit_hd _ _ _ Hp) as [P1 P2]. destruct (pfit_hd _ _ _ Hq) as [Q1 Q2]. cbn [p_size p_off ssize] in P1, P2, Q1, Q2.
  assert (Hd : forall k s, nth_error acc k = Some s -> exists i j e p q, i < rs /\ j < cs /\ k = i + j * rs /\ nth_error l k = Some e /\
     nth_error rl i = Some (Some p) /\ nth_error cl j = Some (Some q) /\ rinfo m s e (i :: rp) (j :: cp) p q).
  { intros k s Hs. pose proof (nth_lt _ _ _ Hs) as Hk. rewrite Ha in Hk. destruct (flat_index k rs cs Hk) as (i & j & Hi & Hj & ->).
    destruct (H i j s Hi Hs) as (e & p' & q' & X). exists i, j, e, p', q'. tauto. }
  assert (Hat : forall i j s, i < rs -> j < cs -> nth_error acc (i + j * rs) = Some s ->
     hrows s = dh l i /\ hcols s = dw rs l j /\ c_off (cp_c (hm_rc s)) = ridx + nsum i (dh l) /\ c_off (cp_c (hm_cc s)) = cidx + nsum j (dw rs l) /\ hplaced s).
  { intros i j s Hi Hj Hs. destruct (H i j s Hi Hs) as (e & p' & q' & X1 & X2 & X3 & (Y1 & Y2 & Y3 & _ & _ & Y6 & _)).
    destruct (dfits_parts _ _ _ _ _ _ _ i j e Hf Hi Hj X1) as [D1 D2]. destruct (content_size _ _ _ Y3) as [C1 C2].
    split; [congruence|]. split; [congruence|]. rewrite Y1, Y2. cbn [pref cp_c new_cluster c_off].
    inversion Hf as [| |rs' cs' l' rows' cols' Rs' Cs' F1 F2 F3 F4 F5 F6 F7 F8]; subst rs' cs' l' rows' cols' Rs' Cs'.
    assert (Es : forall i', i' < rs -> ssz Rs i' = dh l i').
    { intros i' Hi'. destruct (nth_ex l i') as [e' Ee']; [nia|]. destruct (nth_ex Rs i') as [u' Eu']; [lia|]. destruct (nth_ex Cs 0) as [v' Ev']; [lia|].
      unfold ssz, dh. rewrite (nth_error_nth _ _ _ Eu'), (nth_error_nth _ _ _ Ee'). symmetry. apply (dfits_size e' u' v').
      apply (F6 i' 0 e' u' v'); [rewrite Nat.mul_0_l, Nat.add_0_r; exact Ee'|exact Eu'|exact Ev']. }
    assert (Ec : forall j', j' < cs -> ssz Cs j' = dw rs l j').
    { intros j' Hj'. destruct (nth_ex l (j' * rs)) as [e' Ee']; [nia|]. destruct (nth_ex Rs 0) as [u' Eu']; [lia|]. destruct (nth_ex Cs j') as [v' Ev']; [lia|].
      unfold ssz, dw. rewrite (nth_error_nth _ _ _ Ev'), (nth_error_nth _ _ _ Ee'). symmetry. apply (dfits_size e' u' v').
      apply (F6 0 j' e' u' v'); [exact Ee'|exact Eu'|exact Ev']. }
    destruct (nth_ex Rs i) as [u Eu]; [lia|]. destruct (nth_ex Cs j) as [v Ev]; [lia|].
    destruct (pfit_hd _ _ _ (Sr i u p' Eu X2)) as [_ O1]. destruct (pfit_hd _ _ _ (Sc j v q' Ev X3)) as [_ O2]. rewrite O1, O2.
    rewrite (nsum_ext i (ssz Rs) (dh l)) by (intros; apply Es; lia). rewrite (nsum_ext j (ssz Cs) (dw rs l)) by (intros; apply Ec; lia). auto. }
  inversion Hf as [| |rs' cs' l' rows' cols' Rs' Cs' F1 F2 F3 F4 F5 F6 F7 F8]; subst rs' cs' l' rows' cols' Rs' Cs'.
  split; [reflexivity|]. split; [reflexivity|]. split; [|split; [|split; [|split; [|split]]]].
  - pose proof (content_super m (pref (G := G) rp p) (pref cp q) acc rs cs (1 + List.length (flat_map hnodes acc)) l) as Hc.
    change (csz (pref (G := G) rp p)) with (p_size p) in Hc. change (csz (pref (G := G) cp q)) with (p_size q) in Hc. rewrite P1, Q1 in Hc. apply Hc; [exact Ha|].
    apply Forall2_nth_error; [congruence|]. intros k x y Hx Hy. destruct (Hd k x Hx) as (i & j & e & p' & q' & _ & _ & _ & X1 & _ & _ & X2). rewrite Hy in X1. injection X1 as <-. apply X2.
  - intros s Hs. cbn [hnodes] in Hs. destruct Hs as [<-|Hs]; [split; [exists [], (PT (p_size p) (p_off p) rl)|exists [], (PT (p_size q) (p_off q) cl)]; split; reflexivity|].
    apply in_flat_map in Hs. destruct Hs as (t & Ht & Hs). apply In_nth_error in Ht. destruct Ht as [k Hk].
    destruct (Hd k t Hk) as (i & j & e & p' & q' & _ & _ & _ & _ & X2 & X3 & (_ & _ & _ & Y & _)). destruct (Y s Hs) as [(r1 & x1 & A1 & A2) (r2 & x2 & B1 & B2)]. split.
    + exists (r1 ++ [i]), x1. rewrite <- app_assoc. split; [exact A1|]. rewrite (plook_son (PT (p_size p) (p_off p) rl) i p' r1 X2). exact A2.
    + exists (r2 ++ [j]), x2. rewrite <- app_assoc. split; [exact B1|]. rewrite (plook_son (PT (p_size q) (p_off q) cl) j q' r2 X3). exact B2.
  - intros s lx Hs Hlx. cbn [hnodes] in Hs. destruct Hs as [<-|Hs].
    + cbn in Hlx. injection Hlx as <-. cbn [hm_rsons hm_rc hm_cc]. intros i j t Hi Ht. destruct (H i j t Hi Ht) as (e & p' & q' & _ & _ & _ & (Y1 & Y2 & _)). rewrite Y1, Y2. split; reflexivity.
    + apply in_flat_map in Hs. destruct Hs as (t & Ht & Hs). apply In_nth_error in Ht. destruct Ht as [k Hk].
      destruct (Hd k t Hk) as (i & j & e & p' & q' & _ & _ & _ & _ & _ & _ & (_ & _ & _ & _ & Y & _)). exact (Y s lx Hs Hlx).
  - apply (hplaced_super _ _ _ _ _ _ (dh l) (dw rs l)). cbn [pref cp_c new_cluster c_off]. rewrite P2, Q2. exact Hat.
  - apply (hstr_super _ _ _ _ _ _ _ (dh l) (dw rs l)); auto; [change (csz (pref (G := G) rp p)) with (p_size p); congruence|change (csz (pref (G := G) cp q)) with (p_size q); congruence| |].
    + intros i j s Hi Hj Hs. destruct (Hat i j s Hi Hj Hs) as (A1 & A2 & _). auto.
    + intros s Hs. apply In_nth_error in Hs. destruct Hs as [k Hk]. destruct (Hd k s Hk) as (i & j & e & p' & q' & _ & _ & _ & _ & _ & _ & (_ & _ & _ & _ & _ & _ & Y & _)). exact Y.
  - apply hdesc_super. intros s Hs. apply In_nth_error in Hs. destruct Hs as [k Hk]. destruct (Hd k s Hk) as (i & j & e & p' & q' & _ & _ & _ & _ & _ & _ & (_ & _ & _ & _ & _ & _ & _ & Y)). exact Y.
Qed.

Lemma dheader_len ty roff coff rows cols : 0 < List.length (dheader ty roff coff rows cols).
Proof. unfold dheader, uline. rewrite !app_length. cbn [List.length]. lia. Qed.


Lemma wp_read_part d : forall fuel rest roff coff rp cp rc cc ridx cidx u v m,
  List.length (dtext ft d roff coff ++ rest) <= fuel -> dfits d u v -> dgood d -> u32 (roff + drows d) -> u32 (coff + dcols d) ->
  pok rc u ridx -> pok cc v cidx ->
  forall Q : option hmx * text * option ptree * option ptree -> mem K -> Prop,
  (forall h p q m', rres m m' rp cp rc cc ridx cidx u v d h p q -> Q (Some h, rest, Some p, Some q) m') ->
  wp TT TT (read_hlib_part ft fuel (dtext ft d roff coff ++ rest) roff coff rp cp rc cc ridx cidx) m Q.
Proof.
  induction d as [d IH] using hd_ind'. intros fuel rest roff coff rp cp rc cc ridx cidx u v m Hfuel Hf Hg Ur Uc Pr Pc Q HQ.
  assert (U : forall ty, ty <= 3 -> u32 ty) by (intros ty Hty; unfold u32; lia).
  destruct (dfits_size _ _ _ Hf) as [Zr Zc].
  assert (Hp0 : let p := match rc with Some p => p | None => pnew (drows d) ridx end in pfit p u ridx /\ poext rc p).
  { destruct rc as [p|]; cbn in *; [split; [exact Pr|apply pext_refl]|]. rewrite Zr. split; [apply pfit_leaf|exact I]. }
  assert (Hq0 : let q := match cc with Some q => q | None => pnew (dcols d) cidx end in pfit q v cidx /\ poext cc q).
  { destruct cc as [q|]; cbn in *; [split; [exact Pc|apply pext_refl]|]. rewrite Zc. split; [apply pfit_leaf|exact I]. }
  destruct d as [rows cols k A B|rows cols F|rows cols rs cs l]; cbn [dtext drows dcols] in *; rewrite <- ?app_assoc in *;
    (destruct fuel as [|fuel]; [rewrite app_length in Hfuel; pose proof (dheader_len 1 roff coff rows cols); pose proof (dheader_len 2 roff coff rows cols); pose proof (dheader_len 3 roff coff rows cols); lia|]);
    cbn [read_hlib_part]; unfold dheader at 1; rewrite <- !app_assoc; rewrite (fgets_uline _ _ _ _ fmt_type) by (apply U; lia);
    rewrite (proj2 (proj2 fmt_type)) by (apply U; lia);
    rewrite (read_u_uline _ _ _ _ fmt_roff) by (eapply u32_le; [|exact Ur]; lia); cbn [bind];
    rewrite (read_u_uline _ _ _ _ fmt_coff) by (eapply u32_le; [|exact Uc]; lia); cbn [bind]; rewrite !Nat.eqb_refl; cbn [passert bind];
    rewrite (read_u_uline _ _ _ _ fmt_rows) by (eapply u32_le; [|exact Ur]; lia); cbn [bind];
    rewrite (read_u_uline _ _ _ _ fmt_cols) by (eapply u32_le; [|exact Uc]; lia); cbn [bind]; cbv zeta in Hp0, Hq0 |- *;
    set (p0 := match rc with Some p => p | None => pnew rows ridx end) in *; set (q0 := match cc with Some q => q | None => pnew cols cidx end) in *;
    destruct Hp0 as [Hp0 Hp1]; destruct Hq0 as [Hq0 Hq1]; destruct (pfit_hd _ _ _ Hp0) as [Sp Op]; destruct (pfit_hd _ _ _ Hq0) as [Sq Oq]; clearbody p0 q0.
  - apply wp_bind. eapply wp_read_rk; [congruence|congruence|exact Hg|]. intros h m' HI E1 E2 E3 Hn Hb Hk. cbn [fst snd].
    destruct h as [rc' cc' r f son rs cs ds]. cbn in E1, E2, E3. subst rc' cc' son. cbn [update_hmatrix bind wp]. apply HQ.
    repeat (split; [assumption|]). split; [eapply HI; reflexivity|]. auto.
  - apply wp_bind. eapply wp_read_full; [congruence|congruence|exact Hg|]. intros h m' HI E1 E2 E3 Hn Hb Hk. cbn [fst snd].
    destruct h as [rc' cc' r f son rs cs ds]. cbn in E1, E2, E3. subst rc' cc' son. cbn [update_hmatrix bind wp]. apply HQ.
    repeat (split; [assumption|]). split; [eapply HI; reflexivity|]. auto.
  - inversion Hg as [| |rows' cols' rs' cs' l' G1 G2 G3]; clear Hg; subst rows' cols' rs' cs' l'.
    rewrite (read_u_uline _ _ _ _ fmt_brows G1). cbn [bind]. rewrite (read_u_uline _ _ _ _ fmt_bcols G2). cbn [bind].
    inversion Hf as [| |rs' cs' l' rows' cols' Rs Cs F1 F2 F3 F4 F5 F6 F7 F8]; subst rs' cs' l' rows' cols' u v.
    assert (Es : forall i', i' < rs -> ssz Rs i' = dh l i').
    { intros i' Hi'. destruct (nth_ex l i') as [e' Ee']; [nia|]. destruct (nth_ex Rs i') as [u' Eu']; [lia|]. destruct (nth_ex Cs 0) as [v' Ev']; [lia|].
      unfold ssz, dh. rewrite (nth_error_nth _ _ _ Eu'), (nth_error_nth _ _ _ Ee'). symmetry. apply (dfits_size e' u' v').
      apply (F6 i' 0 e' u' v'); [rewrite Nat.mul_0_l, Nat.add_0_r; exact Ee'|exact Eu'|exact Ev']. }
    assert (Ec : forall j', j' < cs -> ssz Cs j' = dw rs l j').
    { intros j' Hj'. destruct (nth_ex l (j' * rs)) as [e' Ee']; [nia|]. destruct (nth_ex Rs 0) as [u' Eu']; [lia|]. destruct (nth_ex Cs j') as [v' Ev']; [lia|].
      unfold ssz, dw. rewrite (nth_error_nth _ _ _ Ev'), (nth_error_nth _ _ _ Ee'). symmetry. apply (dfits_size e' u' v').
      apply (F6 0 j' e' u' v'); [exact Ee'|exact Eu'|exact Ev']. }
    assert (ER : forall i, i <= rs -> nsum i (ssz Rs) = nsum i (dh l)) by (intros i Hi; apply nsum_ext; intros; apply Es; lia).
    assert (EC : forall j, j <= cs -> nsum j (ssz Cs) = nsum j (dw rs l)) by (intros j Hj; apply nsum_ext; intros; apply Ec; lia).
    apply wp_bind. rewrite <- F4 at 1. eapply (wp_psons m p0 _ ridx Rs); [exact Hp0|reflexivity|]. intros rl0 L1 S1 X1.
    apply wp_bind. rewrite <- F5 at 1. eapply (wp_psons m q0 _ cidx Cs); [exact Hq0|reflexivity|]. intros cl0 L2 S2 X2.
    set (T := fun i j => nth (i + j * rs) (map (dtext ft) l) (fun _ _ => []) (roff + nsum i (dh l)) (coff + nsum j (dw rs l))).
    assert (Hlen : List.length (scat 0 cs (fun j => scat 0 rs (fun i => T i j)) ++ rest) <= fuel).
    { rewrite app_length in Hfuel. pose proof (dheader_len 3 roff coff rows cols). unfold T. rewrite !app_length in *. lia. }
    set (ST := stok m rp cp ridx cidx Rs Cs rs l rl0 cl0).
    apply wp_bind.
    apply (wp_forS (fun j (st : text * list (option ptree) * list (option ptree) * nat * nat * list hmx) m1 =>
      exists rl cl acc, st = (scat j (cs - j) (fun j => scat 0 rs (fun i => T i j)) ++ rest, rl, cl, coff + nsum j (dw rs l), cidx + nsum j (dw rs l), acc) /\
        ST (j * rs) rl cl acc m1 /\ List.length (scat j (cs - j) (fun j => scat 0 rs (fun i => T i j)) ++ rest) <= fuel)).
    + exists rl0, cl0, []. rewrite Nat.sub_0_r. cbn [nsum]. rewrite !Nat.add_0_r. split; [reflexivity|]. split; [|exact Hlen].
      repeat (split; [first [assumption|apply sext_refl|reflexivity]|]). split; [intros i j s _ Hs; destruct (i + j * rs); discriminate|].
      split; [constructor|]. split; [intros b []|apply keeps_refl].
    + intros j st m1 Hj (rl & cl & acc & -> & HS & HL). cbn [Nat.add] in Hj. replace (cs - j) with (S (cs - S j)) in * by lia. rewrite scat_S in HL |- *. rewrite <- app_assoc in HL |- *.
      set (rest' := scat (S j) (cs - S j) _ ++ rest) in *.
      apply wp_bind.
      apply (wp_forS (fun i (st : text * list (option ptree) * list (option ptree) * nat * nat * list hmx) m1 =>
        exists rl cl acc, st = (scat i (rs - i) (fun i => T i j) ++ rest', rl, cl, roff + nsum i (dh l), ridx + nsum i (dh l), acc) /\
          ST (i + j * rs) rl cl acc m1 /\ List.length (scat i (rs - i) (fun i => T i j) ++ rest') <= fuel)).
      * exists rl, cl, acc. rewrite Nat.sub_0_r. cbn [nsum]. rewrite !Nat.add_0_r. split; [reflexivity|]. split; [exact HS|exact HL].
      * clear rl cl acc HS HL m1. intros i st m1 Hi (rl & cl & acc & -> & HS & HL). cbn [Nat.add] in Hi. replace (rs - i) with (S (rs - S i)) in * by lia.
        rewrite scat_S in HL |- *. rewrite <- app_assoc in HL |- *.
        destruct (nth_ex rl i) as [ri Eri]; [destruct HS as [-> _]; lia|]. destruct (nth_ex cl j) as [cj Ecj]; [destruct HS as (_ & -> & _); lia|].
        destruct (nth_ex l (i + j * rs)) as [e Ee]; [rewrite F3; apply pos_lt; lia|]. destruct (nth_ex Rs i) as [u Eu]; [lia|]. destruct (nth_ex Cs j) as [v Ev]; [lia|].
        rewrite (sget_some _ _ _ Eri). cbn [bind]. rewrite (sget_some _ _ _ Ecj). cbn [bind].
        destruct (dfits_parts _ _ _ _ _ _ _ i j e Hf) as [D1 D2]; [lia|lia|exact Ee|].
        assert (ET : T i j = dtext ft e (roff + nsum i (dh l)) (coff + nsum j (dw rs l))).
        { unfold T. erewrite (nth_error_nth (map (dtext ft) l) (i + j * rs) (fun _ _ => [])); [reflexivity|]. rewrite nth_error_map, Ee. reflexivity. }
        rewrite ET in *. apply wp_bind.
        pose proof (nsum_in (dh l) i rs ltac:(lia)) as Ni. pose proof (nsum_in (dw rs l) j cs ltac:(lia)) as Nj.
        eapply (IH rows cols rs cs l eq_refl e (nth_error_In _ _ Ee) fuel); [exact HL|exact (F6 i j e u v Ee Eu Ev)|apply G3; eapply nth_error_In; exact Ee| | | | |].
        -- rewrite D1. eapply u32_le; [|exact Ur]. lia.
        -- rewrite D2. eapply u32_le; [|exact Uc]. lia.
        -- destruct ri as [p|]; [|exact I]. cbn [pok]. destruct HS as (_ & _ & HS & _). specialize (HS i u p Eu Eri). rewrite ER in HS by lia. exact HS.
        -- destruct cj as [q|]; [|exact I]. cbn [pok]. destruct HS as (_ & _ & _ & HS & _). specialize (HS j v q Ev Ecj). rewrite EC in HS by lia. exact HS.
        -- intros h p q m2 HR. cbn [have bind wp].
           assert (Eh : hrows h = dh l i) by (destruct HR as (_ & _ & _ & _ & (_ & _ & Hc & _) & _); rewrite (proj1 (content_size _ _ _ Hc)); exact D1).
           exists (lupd rl i (Some p)), (lupd cl j (Some q)), (acc ++ [h]). rewrite Eh. cbn [nsum]. rewrite !Nat.add_assoc. split; [reflexivity|]. split.
           ++ change (S i + j * rs) with (S (i + j * rs)). eapply stok_step; try eassumption; [lia|]. rewrite ER, EC by lia. exact HR.
           ++ rewrite app_length in HL. lia.
      * clear rl cl acc HS HL m1. intros st m1 (rl & cl & acc & -> & HS & HL). cbn [Nat.add] in *. rewrite Nat.sub_diag in *. cbn [scat seq flat_map app] in *.
        rewrite F7, Nat.eqb_refl. cbn [passert bind].
        assert (La : List.length acc = rs + j * rs) by (destruct HS as (_ & _ & _ & _ & _ & _ & X & _); exact X).
        destruct (nth_ex acc ((rs - 1) + j * rs)) as [g Eg]; [lia|].
        assert (El : last (map Some acc) None = Some g).
        { clear -Eg La F1. assert (Hx : List.length acc = S (rs - 1 + j * rs)) by lia. revert Eg Hx. generalize (rs - 1 + j * rs). clear. intros k. revert k. induction acc as [|a acc IH]; intros k Hk Hx; [discriminate|].
          destruct k as [|k]; cbn in Hk, Hx.
          - destruct acc; [injection Hk as ->; reflexivity|discriminate].
          - specialize (IH k Hk ltac:(lia)). destruct acc; [discriminate|]. exact IH. }
        rewrite El. cbn [have bind wp]. destruct HS as (Y1 & Y2 & Y3 & Y4 & Y5 & Y6 & Y7 & Y8 & Y9).
        destruct (Y8 (rs - 1) j g ltac:(lia) Eg) as (e & p' & q' & Z1 & _ & _ & (_ & _ & Z2 & _)).
        destruct (dfits_parts _ _ _ _ _ _ _ (rs - 1) j e Hf) as [_ D2]; [lia|lia|exact Z1|].
        rewrite (proj2 (content_size _ _ _ Z2)), D2. exists rl, cl, acc. cbn [nsum]. rewrite !Nat.add_assoc. split; [reflexivity|]. split; [|exact HL].
        change (S j * rs) with (rs + j * rs). unfold ST, stok. auto 12.
    + intros st m1 (rl & cl & acc & -> & HS & _). cbn [Nat.add]. rewrite Nat.sub_diag. cbn [scat seq flat_map app].
      rewrite F8, Nat.eqb_refl. cbn [passert bind]. destruct HS as (Y1 & Y2 & Y3 & Y4 & Y5 & Y6 & Y7 & Y8 & Y9 & Y10 & Y11).
      assert (La : List.length acc = rs * cs) by lia.
      assert (Hr : forall i, i < List.length rl -> exists p, nth_error rl i = Some (Some p)).
      { intros i Hi. destruct (nth_ex acc (i + 0 * rs)) as [s Es']; [nia|]. destruct (Y8 i 0 s ltac:(lia) Es') as (e & p' & q' & _ & Z & _). eauto. }
      assert (Hc : forall j, j < List.length cl -> exists p, nth_error cl j = Some (Some p)).
      { intros j Hj. destruct (nth_ex acc (0 + j * rs)) as [s Es']; [nia|]. destruct (Y8 0 j s ltac:(lia) Es') as (e & p' & q' & _ & _ & Z & _). eauto. }
      assert (N1 : Shp rows Rs = Shp (nsum (List.length Rs) (ssz Rs)) Rs) by (rewrite F4, ER, F7 by lia; reflexivity).
      assert (N2 : Shp cols Cs = Shp (nsum (List.length Cs) (ssz Cs)) Cs) by (rewrite F5, EC, F8 by lia; reflexivity).
      destruct (psup_ok _ _ _ Rs rl rl0 Hp0 N1 Y1 Y3 Hr Y5 X1) as [B1 B2]. destruct (psup_ok _ _ _ Cs cl cl0 Hq0 N2 Y2 Y4 Hc Y6 X2) as [C1 C2].
      assert (HI : rinfo m1 (HM (pref rp p0) (pref cp q0) None None (Some acc) rs cs (1 + List.length (flat_map hnodes acc)) : hmx) (DSup rows cols rs cs l) rp cp
          (PT (p_size p0) (p_off p0) rl) (PT (p_size q0) (p_off q0) cl)) by (eapply rinfo_super; eassumption).
      apply wp_bind. apply wp_update_super; [exact La| |].
      * intros s Hs. apply In_nth_error in Hs. destruct Hs as [k Hk]. pose proof (nth_lt _ _ _ Hk) as Hlt. rewrite La in Hlt. destruct (flat_index k rs cs Hlt) as (i & j & Hi & Hj & ->).
        destruct (Y8 i j s Hi Hk) as (e & p' & q' & _ & _ & _ & (_ & _ & _ & _ & _ & _ & _ & Y)). exact Y.
      * cbn [wp]. apply HQ. split; [exact B1|]. split; [exact C1|].
        split; [destruct rc as [p|]; [cbn in Hp1 |- *; eapply pext_trans; eassumption|exact I]|].
        split; [destruct cc as [p|]; [cbn in Hq1 |- *; eapply pext_trans; eassumption|exact I]|].
        split; [exact HI|]. split; [exact Y9|]. split; [exact Y10|exact Y11].
Qed.
End P4.
