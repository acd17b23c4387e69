(** * Addition to H-matrices *)
From Coq Require Import Arith Lia List Bool Permutation Ring.
From Verif Require Import Fld Ord Prog Arr View Loop Line Spec Cluster Block Avector Amatrix AvectorP AmatrixP AmatrixP2 Rkmatrix RkSpec RkP Factor FactorSpec Chol CholSpec Qr QrSpec
  CbmSpec CbmP CopSpec OrthoP SepP SepP2 Htrunc HtSpec HtP HtP2 HtP3 HtP4 Hmatrix HmSpec HmP HmP4 HaddSpec HmvP Hadd MgP MgP2 MgP3.
Import ListNotations.

Section Loops.
Context {K : fops} {G : ofops}.
Local Notation hmx := (hmatrix G).
Implicit Types (m : mem K) (h s t : hmx) (l : list hmx) (D E : nat -> nat -> K).

Lemma lupd_app {A} (l1 : list A) (x y : A) (l2 : list A) : lupd (l1 ++ x :: l2) (length l1) y = (l1 ++ [y]) ++ l2.
Proof. induction l1 as [|z l1 IH]; cbn; [reflexivity|]. rewrite IH. reflexivity. Qed.
Lemma skipn_nth {A} (l : list A) k (x : A) : nth_error l k = Some x -> skipn k l = x :: skipn (S k) l.
Proof. revert k. induction l as [|y l IH]; intros [|k]; cbn; try discriminate; [intros E; injection E as ->; reflexivity|apply IH]. Qed.

(** The loop that collects the changed sons in a new list *)
Lemma wp_addparts {A} (part : nat -> nat -> nat -> nat -> prog K A) (done : A -> prog K unit) (go : hmx -> A -> prog K hmx) rc cc l rs cs ds hs ws D E m (Q : list hmx -> mem K -> Prop) :
  0 < rs -> 0 < cs -> length l = rs * cs -> nsum rs hs = csz rc -> nsum cs ws = csz cc ->
  (forall i j s, i < rs -> j < cs -> nth_error l (i + j * rs) = Some s -> hrows s = hs i /\ hcols s = ws j) ->
  (forall i j s, i < rs -> j < cs -> nth_error l (i + j * rs) = Some s -> hrep m s (fun p q => D (nsum i hs + p) (nsum j ws + q))) ->
  hmut m (HM rc cc None None (Some l) rs cs ds) ->
  (forall i j s F1 m1 (k : hmx -> prog K (list hmx * nat)) (Q1 : list hmx * nat -> mem K -> Prop), i < rs -> j < cs -> nth_error l (i + j * rs) = Some s -> moves m (fpl l) F1 m1 ->
     hrep m1 s (fun p q => D (nsum i hs + p) (nsum j ws + q)) -> hmut m1 s -> nsum i hs + hrows s <= csz rc -> nsum j ws + hcols s <= csz cc ->
     (forall s' m2, hpost m1 s (fun p q => E (nsum i hs + p) (nsum j ws + q)) s' m2 -> wp TT TT (k s') m2 Q1) ->
     wp TT TT (a1 <- part (hrows s) (nsum i hs) (hcols s) (nsum j ws) ;; b1 <- go s a1 ;; done a1 ;;; k b1) m1 Q1) ->
  (forall l' m', hpost m (HM rc cc None None (Some l) rs cs ds) E (HM rc cc None None (Some l') rs cs ds) m' -> Q l' m') ->
  wp TT TT (addparts part done rc cc (Some (map (fun s => (s, go s)) l)) rs cs) m Q.
Proof.
  intros R0 C0 HL E1 E2 HS HR HU HB HQ. unfold addparts. apply wp_bind.
  set (V := fun k i => if i <? k then partof rs hs ws E i else partof rs hs ws D i).
  set (INV := fun k (l1 : list hmx) m1 => length l1 = k /\ forest m l (l1 ++ skipn k l) (V k) m1).
  apply (wp_forS (fun j (st : list hmx * nat) m1 => snd st = nsum j ws /\ INV (j * rs) (fst st) m1)).
  - split; [reflexivity|]. split; [reflexivity|]. cbn [fst skipn app]. eapply forest_ext; [eapply forest_sons; eassumption|]. intros k a b _. reflexivity.
  - intros j [l1 coff] m1 [_ Hj] [Hc HI]. cbn [fst snd] in *. subst coff. apply wp_bind.
    apply (wp_forS (fun i (st : list hmx * nat) m1 => snd st = nsum i hs /\ INV (i + j * rs) (fst st) m1)).
    + split; [reflexivity|exact HI].
    + intros i [l2 roff] m2 [_ Hi] [Hr [HL2 HF]]. cbn [fst snd] in *. subst roff.
      assert (Hp : i + j * rs < rs * cs) by (apply pos_lt; lia).
      destruct (nth_ex l (i + j * rs) ltac:(lia)) as (s & Hs).
      pose proof (HS i j s ltac:(lia) ltac:(lia) Hs) as [Z1 Z2].
      rewrite (skipn_nth _ _ _ Hs) in HF.
      assert (Hn2 : nth_error (l2 ++ s :: skipn (S (i + j * rs)) l) (i + j * rs) = Some s) by (rewrite nth_error_app2, HL2, Nat.sub_diag by lia; reflexivity).
      destruct (forest_get _ _ _ _ _ _ _ HF Hn2) as (s0 & _ & _ & B2 & B3).
      apply wp_bind. rewrite (sget_map _ _ _ _ Hs). cbn [wp]. cbn [fst snd].
      pose proof (nsum_in hs i rs ltac:(lia)). pose proof (nsum_in ws j cs ltac:(lia)).
      eapply (HB i j s _ m2 (fun b1 => Ret (l2 ++ [b1], nsum i hs + hrows s))); [lia|lia|exact Hs|apply HF| |exact B3|lia|lia|].
      { eapply hrep_ext; [exact B2|]. intros p q _ _. unfold V. rewrite (proj2 (Nat.ltb_ge _ _)) by lia. rewrite partof_at by lia. reflexivity. }
      intros s' m3 HP. cbn [wp fst snd]. split; [rewrite Z1; reflexivity|]. split; [rewrite app_length; cbn; lia|].
      pose proof (forest_step _ _ _ _ _ _ _ _ _ _ HF Hn2 HP) as HF2. replace (lupd (l2 ++ s :: skipn (S (i + j * rs)) l) (i + j * rs) s') with ((l2 ++ [s']) ++ skipn (S (i + j * rs)) l) in HF2 by (rewrite <- lupd_app with (x := s), HL2; reflexivity).
      eapply forest_ext; [exact HF2|]. intros k a b _. unfold V. destruct (Nat.eqb_spec k (i + j * rs)) as [->|Hne].
      * rewrite (proj2 (Nat.ltb_lt _ _)) by lia. rewrite partof_at by lia. reflexivity.
      * destruct (Nat.ltb_spec k (S i + j * rs)), (Nat.ltb_spec k (i + j * rs)); try lia; reflexivity.
    + intros [l2 roff] m2 [Hr HI2]. cbn [fst snd] in *. cbn [Nat.add] in Hr. subst roff. apply wp_bind, wp_assert; [apply Nat.eqb_eq, E1|].
      destruct (nth_ex l (j * rs) ltac:(rewrite HL; pose proof (pos_lt 0 j rs cs ltac:(lia) ltac:(lia)); lia)) as (s & Hs).
      pose proof (HS 0 j s ltac:(lia) ltac:(lia) Hs) as [_ Z2].
      apply wp_bind. rewrite (sget_map _ _ _ _ Hs). cbn [wp fst snd]. split; [rewrite Z2; reflexivity|]. cbn [Nat.add] in HI2. replace (S j * rs) with (rs + j * rs) by lia. exact HI2.
  - intros [l1 coff] m1 [Hc [HL1 HF]]. cbn [fst snd Nat.add] in *. subst coff. apply wp_bind, wp_assert; [apply Nat.eqb_eq, E2|]. cbn [wp]. apply HQ.
    eapply forest_end with (hs := hs) (ws := ws); try eassumption. rewrite skipn_all2, app_nil_r in HF by lia. eapply forest_ext; [exact HF|]. intros k a b Hk. unfold V. rewrite (proj2 (Nat.ltb_lt _ _)) by lia. reflexivity.
Qed.

(** The loop that replaces the sons *)
Lemma wp_addsons {A} (go : A -> hmx -> prog K hmx) (la : list A) rc cc l rs cs ds hs ws D E m (Q : hmx -> mem K -> Prop) :
  0 < rs -> 0 < cs -> length l = rs * cs -> nsum rs hs = csz rc -> nsum cs ws = csz cc ->
  (forall i j s, i < rs -> j < cs -> nth_error l (i + j * rs) = Some s -> hrows s = hs i /\ hcols s = ws j) ->
  (forall i j s, i < rs -> j < cs -> nth_error l (i + j * rs) = Some s -> hrep m s (fun p q => D (nsum i hs + p) (nsum j ws + q))) ->
  hmut m (HM rc cc None None (Some l) rs cs ds) -> length la = rs * cs ->
  (forall i j x s F1 m1, i < rs -> j < cs -> nth_error la (i + j * rs) = Some x -> nth_error l (i + j * rs) = Some s -> moves m (fpl l) F1 m1 ->
     hrep m1 s (fun p q => D (nsum i hs + p) (nsum j ws + q)) -> hmut m1 s ->
     wp TT TT (go x s) m1 (hpost m1 s (fun p q => E (nsum i hs + p) (nsum j ws + q)))) ->
  (forall h' m', hpost m (HM rc cc None None (Some l) rs cs ds) E h' m' -> Q h' m') ->
  wp TT TT (addsons (Some (map go la)) rs cs (HM rc cc None None (Some l) rs cs ds)) m Q.
Proof.
  intros R0 C0 HL E1 E2 HS HR HU HLa HB HQ. unfold addsons. cbn [hm_son]. apply wp_bind.
  set (V := fun k i => if i <? k then partof rs hs ws E i else partof rs hs ws D i).
  eapply (HmP4.wp_sonloop (fun k l' m1 => forest m l l' (V k) m1 /\ forall p, k <= p -> nth_error l' p = nth_error l p)).
  - split; [|reflexivity]. eapply forest_ext; [eapply forest_sons; eassumption|]. intros k a b _. reflexivity.
  - intros k l' m1 Hk [HF Hn]. destruct (nth_ex l k ltac:(lia)) as (s & Hs). destruct (nth_ex la k ltac:(lia)) as (x & Hx).
    assert (Hs' : nth_error l' k = Some s) by (rewrite Hn by lia; exact Hs).
    apply wp_bind. rewrite (sget_map _ _ _ _ Hx). cbn [wp]. apply wp_bind. rewrite (sget_some _ _ _ Hs'). cbn [wp]. apply wp_bind.
    destruct (forest_get _ _ _ _ _ _ _ HF Hs') as (s0 & _ & _ & B2 & B3).
    assert (Hi : k mod rs < rs) by (apply Nat.mod_upper_bound; lia). assert (Hj : k / rs < cs) by (apply Nat.div_lt_upper_bound; lia).
    assert (Ek : k mod rs + k / rs * rs = k) by (pose proof (Nat.div_mod k rs ltac:(lia)); lia).
    eapply wp_conseq; [eapply (HB (k mod rs) (k / rs)); [exact Hi|exact Hj|rewrite Ek; exact Hx|rewrite Ek; exact Hs|apply HF| |exact B3]|].
    { eapply hrep_ext; [exact B2|]. intros p q _ _. unfold V. rewrite (proj2 (Nat.ltb_ge _ _)) by lia. reflexivity. }
    cbv beta. intros s' m2 HP. cbn [wp]. split.
    + eapply forest_ext; [eapply (forest_step _ _ _ _ _ _ _ _ _ _ HF Hs' HP)|]. intros i a b _. unfold V. destruct (Nat.eqb_spec i k) as [->|Hne].
      * rewrite (proj2 (Nat.ltb_lt _ _)) by lia. reflexivity.
      * destruct (Nat.ltb_spec i (k + 1)), (Nat.ltb_spec i k); try lia; reflexivity.
    + intros p Hp. rewrite lupd_nth. destruct (Nat.eqb_spec p k); [lia|]. cbn [andb]. apply Hn. lia.
  - intros l' m1 [HF _]. cbn [wp set_sons]. apply HQ. eapply forest_end with (hs := hs) (ws := ws); try eassumption.
    eapply forest_ext; [exact HF|]. intros k a b Hk. rewrite (fo_len _ _ _ _ _ HF), HL in Hk. unfold V. rewrite (proj2 (Nat.ltb_lt _ _)) by lia. reflexivity.
Qed.
End Loops.
