(** * Proofs about text files: the whole file *)
From Coq Require Import NArith Ascii String Arith Lia Bool List.
From Verif Require Import Fld Ord Prog Arr View Spec Loop Cluster Block BlockP Amatrix AmatrixP AmatrixP2 Rkmatrix RkSpec RkP Hmatrix HmSpec HmP HmP4 HmP5 HmP6
  Hlib HlibSpec HlibP HlibP2 HlibP3 HlibP4.
Import ListNotations.

Section P5.
Context {K : fops} {G : ofops} (ft : ftext K).
Implicit Types (m : mem K) (h : hmatrix G) (d : hdata K).
Local Notation hmx := (hmatrix G).
Local Notation hd := (hdata K).

(** ** Final clusters *)
Lemma sub_fin p rel : forall x, plook p rel = Some x -> sub_cluster (fin (G := G) p) rel = Some (fin x).
Proof.
  induction rel as [|i rel IH]; intros x; cbn [plook sub_cluster].
  - intros [= <-]. reflexivity.
  - destruct (plook p rel) as [y|]; [|discriminate]. rewrite (IH y eq_refl). destruct (nth_error (p_son y) i) as [[z|]|] eqn:E; try discriminate. intros [= <-].
    destruct y as [size off l]. cbn [p_son] in E. cbn [fin new_cluster c_sons]. rewrite nth_error_map, E. reflexivity.
Qed.
Lemma cfinish_pref p rel k x : plook p rel = Some x -> cfinish (fin (G := G) p) (pref (rel ++ [k]) x) = CP (rel ++ [k]) (fin x).
Proof.
  intros H. unfold cfinish, pref. cbn [cp_path]. rewrite app_length. cbn [List.length]. rewrite Nat.add_sub, firstn_app, firstn_all, Nat.sub_diag. cbn [firstn]. rewrite app_nil_r.
  rewrite (sub_fin _ _ _ H). reflexivity.
Qed.
Lemma fin_size x : c_size (fin (G := G) x) = p_size x.
Proof. destruct x; reflexivity. Qed.
Lemma fin_off x : c_off (fin (G := G) x) = p_off x.
Proof. destruct x; reflexivity. Qed.

(** ** Changing clusters *)
Section Map.
Variables fr fc : cptr G -> cptr G.
Definition cgood h : Prop := forall s, In s (hnodes h) ->
  csz (fr (hm_rc s)) = csz (hm_rc s) /\ csz (fc (hm_cc s)) = csz (hm_cc s) /\
  c_off (cp_c (fr (hm_rc s))) = c_off (cp_c (hm_rc s)) /\ c_off (cp_c (fc (hm_cc s))) = c_off (cp_c (hm_cc s)).
Lemma cgood_top h : cgood h -> csz (fr (hm_rc h)) = csz (hm_rc h) /\ csz (fc (hm_cc h)) = csz (hm_cc h) /\
  c_off (cp_c (fr (hm_rc h))) = c_off (cp_c (hm_rc h)) /\ c_off (cp_c (fc (hm_cc h))) = c_off (cp_c (hm_cc h)).
Proof. intros H. apply H. destruct h. left. reflexivity. Qed.
Lemma cgood_son (rc cc : cptr G) r f l rs cs ds s : cgood (HM rc cc r f (Some l) rs cs ds) -> In s l -> cgood s.
Proof. intros H Hs t Ht. apply H. cbn [hnodes]. right. apply in_flat_map. exists s. split; assumption. Qed.
Lemma hmapc_rc h : hm_rc (hmapc fr fc h) = fr (hm_rc h). Proof. destruct h; reflexivity. Qed.
Lemma hmapc_cc h : hm_cc (hmapc fr fc h) = fc (hm_cc h). Proof. destruct h; reflexivity. Qed.

Lemma hmapc_blocks h : hblocks (hmapc fr fc h) = hblocks h.
Proof.
  induction h as [h IH] using hm_rect'. destruct h as [rc cc r f [l|] rs cs ds]; cbn [hmapc hblocks]; [|reflexivity]. do 2 f_equal.
  rewrite flat_map_concat_map, map_map, flat_map_concat_map. f_equal. apply map_ext_in. intros s Hs. apply (IH l s eq_refl Hs).
Qed.
Lemma hmapc_nodes h : hnodes (hmapc fr fc h) = map (hmapc fr fc) (hnodes h).
Proof.
  induction h as [h IH] using hm_rect'. destruct h as [rc cc r f [l|] rs cs ds]; cbn [hmapc hnodes map]; [|reflexivity]. f_equal.
  assert (X : forall l, (forall s, In s l -> hnodes (hmapc fr fc s) = map (hmapc fr fc) (hnodes s)) ->
    flat_map hnodes (map (hmapc fr fc) l) = map (hmapc fr fc) (flat_map hnodes l)).
  { clear. intros l H. induction l as [|a l IHl]; [reflexivity|]. cbn [map flat_map]. rewrite map_app, H by (left; reflexivity). f_equal. apply IHl. intros; apply H; right; assumption. }
  apply X. intros s Hs. apply (IH l s eq_refl Hs).
Qed.
Lemma hmapc_desc h : hdesc_ok h -> hdesc_ok (hmapc fr fc h).
Proof.
  intros H s Hs. rewrite hmapc_nodes in Hs. apply in_map_iff in Hs. destruct Hs as (t & <- & Ht). rewrite hmapc_nodes, map_length, <- (H t Ht). destruct t; reflexivity.
Qed.
Lemma hmapc_content m h : forall d, content m h d -> cgood h -> content m (hmapc fr fc h) d.
Proof.
  induction h as [h IH] using hm_rect'. intros d Hc Hg. destruct (cgood_top _ Hg) as (E1 & E2 & _ & _).
  destruct Hc as [rc cc r ds A B H1 H2 H3 H4 H5 H6|rc cc f ds F H1 H2 H3|rc cc l rs cs ds ld H1 H2]; cbn [hm_rc hm_cc] in E1, E2; rewrite <- E1, <- E2; cbn [hmapc].
  - constructor; congruence || assumption.
  - constructor; congruence || assumption.
  - constructor; [rewrite map_length; exact H1|]. apply Forall2_nth_error; [rewrite map_length; eapply Forall2_len; exact H2|].
    intros k x y Hx Hy. rewrite nth_error_map in Hx. destruct (nth_error l k) as [s|] eqn:Es; [|discriminate]. injection Hx as <-.
    apply (IH l s eq_refl); [eapply nth_error_In; exact Es|eapply HmP5.Forall2_nth; eassumption|eapply cgood_son; [exact Hg|eapply nth_error_In; exact Es]].
Qed.
Lemma hmapc_sizes h : cgood h -> hrows (hmapc fr fc h) = hrows h /\ hcols (hmapc fr fc h) = hcols h.
Proof. intros Hg. destruct (cgood_top _ Hg) as (E1 & E2 & _ & _). unfold hrows, hcols. rewrite hmapc_rc, hmapc_cc. auto. Qed.
Lemma hmapc_str m h : hstr m h -> cgood h -> hstr m (hmapc fr fc h).
Proof.
  intros H. induction H as [rc cc r ds H1 H2 H3|rc cc f ds H1 H2 H3 H4 H5 H6|rc cc l rs cs ds hs ws P1 P2 P3 P4 P5 P6 P7 IH]; intros Hg;
    destruct (cgood_top _ Hg) as (E1 & E2 & _ & _); cbn [hm_rc hm_cc] in E1, E2; cbn [hmapc].
  - constructor; congruence || assumption.
  - constructor; congruence || assumption.
  - apply (hstr_super _ _ _ _ _ _ _ hs ws); try congruence; try assumption; [rewrite map_length; exact P3| |].
    + intros i j s Hi Hj Hs. rewrite nth_error_map in Hs. destruct (nth_error l (i + j * rs)) as [t|] eqn:Et; [|discriminate]. injection Hs as <-.
      destruct (hmapc_sizes t) as [-> ->]; [eapply cgood_son; [exact Hg|eapply nth_error_In; exact Et]|]. eapply P6; eassumption.
    + intros s Hs. apply in_map_iff in Hs. destruct Hs as (t & <- & Ht). apply IH; [exact Ht|]. eapply cgood_son; eassumption.
Qed.
Lemma hmapc_placed h : hplaced h -> cgood h -> hplaced (hmapc fr fc h).
Proof.
  induction h as [h IH] using hm_rect'. intros Hp Hg. destruct Hp as [h Hs|rc cc l rs cs ds hs ws H].
  - apply hplaced_leaf. destruct h as [rc cc r f [l|] rs cs ds]; [discriminate|reflexivity].
  - destruct (cgood_top _ Hg) as (_ & _ & E1 & E2). cbn [hm_rc hm_cc] in E1, E2. cbn [hmapc]. apply (hplaced_super _ _ _ _ _ _ hs ws). intros i j s Hi Hj Hs.
    rewrite nth_error_map in Hs. destruct (nth_error l (i + j * rs)) as [t|] eqn:Et; [|discriminate]. injection Hs as <-.
    assert (Gt : cgood t) by (eapply cgood_son; [exact Hg|eapply nth_error_In; exact Et]).
    destruct (H i j t Hi Hj Et) as (A1 & A2 & A3 & A4 & A5). destruct (hmapc_sizes t Gt) as [-> ->]. rewrite hmapc_rc, hmapc_cc.
    destruct (cgood_top _ Gt) as (_ & _ & T1 & T2). rewrite T1, T2, E1, E2. repeat (split; [assumption|]). apply (IH l t eq_refl); [eapply nth_error_In; exact Et|exact A5|exact Gt].
Qed.
End Map.

(** ** The matrix of the data *)
Lemma content_rep h : forall m m' h' D d, hrep m h D -> content m h d -> content m' h' d -> hrep m' h' D.
Proof.
  induction h as [h IH] using hm_rect'. intros m m' h' D d Hr Hc Hc'.
  destruct Hr as [rc cc r ds D H1 H2 H3|rc cc a ds D H1 H2 H3|rc cc l rsons csons ds hs ws D P1 P2 P3 P4 P5 P6 P7].
  - inversion Hc as [? ? ? ? A B C1 C2 C3 C4 C5 C6| |]; subst. inversion Hc' as [rc' cc' r' ? ? ? D1 D2 D3 D4 D5 D6 E1 E2| |]; subst.
    constructor; [congruence|congruence|]. destruct H3 as (A0 & B0 & V1 & V2 & V3 & V4 & V5). exists A, B. repeat (split; [assumption|]).
    intros i j Hi Hj. rewrite V5 by congruence. replace (rk_k r') with (rk_k r) by congruence. unfold lowrank. apply sum_ext. intros nu Hnu.
    assert (X1 : A0 i nu = A i nu) by (pose proof (V1 i nu ltac:(congruence) ltac:(lia)) as Y1; pose proof (C5 i nu ltac:(congruence) ltac:(lia)) as Y2; congruence).
    assert (X2 : B0 j nu = B j nu) by (pose proof (V2 j nu ltac:(congruence) ltac:(lia)) as Y1; pose proof (C6 j nu ltac:(congruence) ltac:(lia)) as Y2; congruence).
    rewrite X1, X2. reflexivity.
  - inversion Hc as [|? ? ? ? F C1 C2 C3|]; subst. inversion Hc' as [|rc' cc' f' ? ? D1 D2 D3 E1 E2|]; subst.
    constructor; [congruence|congruence|]. eapply mval_ext; [exact D3|]. intros i j Hi Hj.
    pose proof (C3 i j ltac:(congruence) ltac:(congruence)) as Y1. pose proof (H3 i j ltac:(congruence) ltac:(congruence)) as Y2. congruence.
  - inversion Hc as [| |? ? ? ? ? ? ld C1 C2]; subst. inversion Hc' as [| |rc' cc' l' ? ? ? ? D1 D2 E1 E2]; subst.
    assert (X : forall k s', nth_error l' k = Some s' -> exists s e, nth_error l k = Some s /\ content m s e /\ content m' s' e).
    { intros k s' Hs'. pose proof (nth_lt _ _ _ Hs') as Hlt. destruct (nth_ex l k) as [s Es]; [lia|]. pose proof (Forall2_len _ _ _ C2).
      destruct (nth_ex ld k) as [e Ee]; [lia|]. exists s, e. split; [exact Es|]. split; eapply HmP5.Forall2_nth; eassumption. }
    apply (hrep_super _ _ _ _ _ _ _ hs ws); try assumption; try congruence.
    + intros i j s' Hi Hj Hs'. destruct (X _ _ Hs') as (s & e & Es & Y1 & Y2). destruct (content_size _ _ _ Y1) as [Z1 Z2]. destruct (content_size _ _ _ Y2) as [Z3 Z4].
      destruct (P6 i j s Hi Hj Es). split; congruence.
    + intros i j s' Hi Hj Hs'. destruct (X _ _ Hs') as (s & e & Es & Y1 & Y2). eapply (IH l s eq_refl); [eapply nth_error_In; exact Es|apply (P7 i j s Hi Hj Es)|exact Y1|exact Y2].
Qed.

Lemma content_good m h : forall d, content m h d -> hsmall h -> hprintable ft m h -> dgood ft d.
Proof.
  induction h as [h IH] using hm_rect'. intros d Hc Hs Hp.
  destruct Hc as [rc cc r ds A B H1 H2 H3 H4 H5 H6|rc cc f ds F H1 H2 H3|rc cc l rs cs ds ld H1 H2].
  - destruct (Hs _ (or_introl eq_refl)) as (_ & _ & _ & _ & Hk). specialize (Hk r eq_refl).
    constructor; [exact Hk| |]; intros i j Hi Hj; eapply Hp; [eapply inh_r; [reflexivity|left; exists i, j; repeat split; congruence || lia]|apply H5; congruence || lia| |apply H6; congruence || lia].
    eapply inh_r; [reflexivity|right; exists i, j; repeat split; congruence || lia].
  - constructor. intros i j Hi Hj. eapply Hp; [eapply inh_f; [reflexivity|exists i, j; repeat split; congruence || lia]|apply H3; congruence].
  - destruct (Hs _ (or_introl eq_refl)) as (_ & _ & U1 & U2 & _). constructor; [exact U1|exact U2|]. intros e He. apply In_nth_error in He. destruct He as [k Hk].
    pose proof (Forall2_len _ _ _ H2). destruct (nth_ex l k) as [s Es]; [apply nth_lt in Hk; lia|]. pose proof (nth_error_In _ _ Es) as Hin.
    apply (IH l s eq_refl Hin); [eapply HmP5.Forall2_nth; eassumption| |].
    + intros t Ht. apply Hs. cbn [hnodes]. right. apply in_flat_map. exists s. split; assumption.
    + intros a x Ha. apply Hp. eapply inh_son; [reflexivity|exact Hin|exact Ha].
Qed.

(** ** The theorem *)
Lemma fgets_str s rest : ~ In nl (str s) -> List.length (str s) < 79 -> fgets 79 (str s ++ [nl] ++ rest) = Some (str s ++ [nl], rest).
Proof. intros H1 H2. apply fgets_line; assumption. Qed.

Lemma wp_roundtrip m h D R C : hrep m h D -> hfits h R C -> hsmall h -> hprintable ft m h ->
  forall Q : text -> mem K -> Prop,
  (forall t, (forall m2, wp TT TT (read_hlib_hmatrix ft t) m2 (fun o m' => exists h', o = Some h' /\ hown m' h' /\ hdesc_ok h' /\ hrep m' h' D /\
     (exists d, content m h d /\ content m' h' d) /\ hcl_sons h' /\ hplaced h' /\ c_off (cp_c (hm_rc h')) = 0 /\ c_off (cp_c (hm_cc h')) = 0 /\
     (forall b, In b (hblocks h') -> next m2 <= b) /\ keeps (fun a => next m2 <= fst a) m2 m')) -> Q t m) ->
  wp TT TT (write_hlib_hmatrix ft h) m Q.
Proof.
  intros Hr Hf Hs Hp Q HQ. destruct (hrep_content h m D Hr) as [d Hc]. pose proof (content_fits h m D d R C Hr Hc Hf) as Hd.
  pose proof (content_good m h d Hc Hs Hp) as Hg. unfold write_hlib_hmatrix. apply wp_bind. eapply wp_write_part; [exact Hc|exact Hd|]. cbn [wp]. apply HQ.
  intros m2. unfold read_hlib_hmatrix. rewrite fgets_str; [|intros X; cbn in X; intuition discriminate|cbn; lia].
  apply wp_bind. destruct (content_size _ _ _ Hc) as [Z1 Z2]. assert (Hn0 : In h (hnodes h)) by (destruct h; left; reflexivity).
  destruct (Hs h Hn0) as (U1 & U2 & _). rewrite Z1 in U1. rewrite Z2 in U2.
  eapply (wp_read_part ft d); [apply le_n|exact Hd|exact Hg|exact U1|exact U2|exact I|exact I|].
  intros g p q m' (F1 & F2 & _ & _ & (I1 & I2 & I3 & I4 & I5 & I6 & I7 & I8) & N1 & N2 & K1).
  set (fr := cfinish (fin (G := G) p)). set (fc := cfinish (fin (G := G) q)).
  cbn -[fr fc]. exists (hmapc fr fc g). split; [reflexivity|].
  assert (L1 : forall s, In s (hnodes g) -> exists rel x, hm_rc s = pref (rel ++ [0]) x /\ plook p rel = Some x /\ fr (hm_rc s) = CP (rel ++ [0]) (fin x)).
  { intros s Hin. destruct (I4 s Hin) as [(rel & x & X1 & X2) _]. exists rel, x. split; [exact X1|]. split; [exact X2|]. rewrite X1. apply cfinish_pref. exact X2. }
  assert (L2 : forall s, In s (hnodes g) -> exists rel x, hm_cc s = pref (rel ++ [1]) x /\ plook q rel = Some x /\ fc (hm_cc s) = CP (rel ++ [1]) (fin x)).
  { intros s Hin. destruct (I4 s Hin) as [_ (rel & x & X1 & X2)]. exists rel, x. split; [exact X1|]. split; [exact X2|]. rewrite X1. apply cfinish_pref. exact X2. }
  assert (Hcg : cgood fr fc g).
  { intros s Hin. destruct (L1 s Hin) as (r1 & x1 & A1 & A2 & A3). destruct (L2 s Hin) as (r2 & x2 & B1 & B2 & B3). rewrite A3, B3, A1, B1. unfold csz. cbn [cp_c pref new_cluster c_size c_off].
    rewrite !fin_size, !fin_off. auto. }
  assert (Hgn : In g (hnodes g)) by (destruct g; left; reflexivity).
  split; [split; [apply hmapc_str; assumption|rewrite hmapc_blocks; exact N1]|]. split; [apply hmapc_desc; exact I8|].
  pose proof (hmapc_content fr fc m' g d I3 Hcg) as Hc'.
  split; [exact (content_rep h m m' _ D d Hr Hc Hc')|]. split; [exists d; split; assumption|]. split; [|split; [apply hmapc_placed; assumption|]].
  - intros s l Hin Hl i j t Hi Ht. rewrite hmapc_nodes in Hin. apply in_map_iff in Hin. destruct Hin as (s0 & <- & Hs0).
    destruct s0 as [rc cc r f [l0|] rs cs ds]; [|discriminate]. cbn [hmapc hm_son] in Hl. injection Hl as <-. cbn [hmapc hm_rsons] in Hi, Ht. rewrite nth_error_map in Ht.
    destruct (nth_error l0 (i + j * rs)) as [t0|] eqn:Et; [|discriminate]. injection Ht as <-.
    assert (Ht0 : In t0 (hnodes g)).
    { clear -Hs0 Et. assert (X : forall a b : hmx, In a (hnodes g) -> In b (hnodes a) -> In b (hnodes g)).
      { clear. induction g as [g IH] using hm_rect'. intros a b Ha Hb. destruct g as [rc cc r f [l|] rs cs ds]; cbn [hnodes] in Ha |- *.
        - destruct Ha as [<-|Ha]; [exact Hb|]. right. apply in_flat_map in Ha. destruct Ha as (x & Hx & Ha). apply in_flat_map. exists x. split; [exact Hx|]. eapply (IH l x eq_refl Hx); eassumption.
        - destruct Ha as [<-|[]]. exact Hb. }
      eapply X; [exact Hs0|]. cbn [hnodes]. right. apply in_flat_map. exists t0. split; [eapply nth_error_In; exact Et|destruct t0; left; reflexivity]. }
    rewrite !hmapc_rc, !hmapc_cc. destruct (I5 _ l0 Hs0 eq_refl i j t0 Hi Et) as [Q1 Q2]. cbn [hm_rc hm_cc] in Q1, Q2.
    destruct (L1 _ Hs0) as (r1 & x1 & A1 & A2 & A3). destruct (L2 _ Hs0) as (r2 & x2 & B1 & B2 & B3).
    destruct (L1 _ Ht0) as (r3 & x3 & A4 & A5 & A6). destruct (L2 _ Ht0) as (r4 & x4 & B4 & B5 & B6). cbn [hm_rc hm_cc] in *. rewrite A3, B3, A6, B6.
    rewrite A4, A1 in Q1. rewrite B4, B1 in Q2. cbn [cp_path pref] in Q1, Q2. change (i :: r1 ++ [0]) with ((i :: r1) ++ [0]) in Q1. change (j :: r2 ++ [1]) with ((j :: r2) ++ [1]) in Q2.
    apply app_inj_tail in Q1. destruct Q1 as [-> _]. apply app_inj_tail in Q2. destruct Q2 as [-> _]. cbn [plook] in A5, B5. rewrite A2 in A5. rewrite B2 in B5.
    destruct x1 as [z1 o1 l1]. destruct x2 as [z2 o2 l2]. cbn [p_son] in A5, B5.
    destruct (nth_error l1 i) as [[y1|]|] eqn:Ey1; try discriminate. injection A5 as ->. destruct (nth_error l2 j) as [[y2|]|] eqn:Ey2; try discriminate. injection B5 as ->.
    unfold cp_son. cbn [cp_c cp_path fin new_cluster c_sons]. rewrite !nth_error_map, Ey1, Ey2. split; reflexivity.
  - rewrite hmapc_rc, hmapc_cc. destruct (cgood_top _ _ _ Hcg) as (_ & _ & -> & ->). rewrite I1, I2. cbn [pref cp_c new_cluster c_off].
    destruct (pfit_hd _ _ _ F1) as [_ ->]. destruct (pfit_hd _ _ _ F2) as [_ ->]. split; [reflexivity|]. split; [reflexivity|]. rewrite hmapc_blocks. split; [intros b Hb; apply N2, Hb|exact K1].
Qed.
End P5.
