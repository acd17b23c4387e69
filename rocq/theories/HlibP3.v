(** * Proofs about text files: reading *)
From Coq Require Import NArith Ascii String Arith Lia Bool List.
From Verif Require Import Fld Ord Prog Arr View Spec Loop Cluster Block BlockP Amatrix AmatrixP AmatrixP2 Rkmatrix RkSpec RkP Hmatrix HmSpec HmP HmP4 HmP5 Hlib HlibSpec HlibP HlibP2.
Import ListNotations.

Definition ssz (Rs : list shape) (i : nat) : nat := ssize (nth i Rs (Shp 0 [])).
(** A cluster tree under construction that fits a shape: a cluster has either no sons or all sons. *)
Inductive pfit : ptree -> shape -> nat -> Prop :=
| pfit_leaf u off : pfit (PT (ssize u) off []) u off
| pfit_sup size off Rs l : List.length l = List.length Rs ->
    (forall i, i < List.length l -> exists p, nth_error l i = Some (Some p)) ->
    (forall i u p, nth_error Rs i = Some u -> nth_error l i = Some (Some p) -> pfit p u (off + nsum i (ssz Rs))) ->
    nsum (List.length Rs) (ssz Rs) = size ->
    pfit (PT size off l) (Shp size Rs) off.
(** [p'] is [p] with more sons. *)
Inductive pext : ptree -> ptree -> Prop :=
| pext_leaf size off l : pext (PT size off []) (PT size off l)
| pext_sup size off l l' : List.length l = List.length l' ->
    (forall i p, nth_error l i = Some (Some p) -> exists p', nth_error l' i = Some (Some p')) ->
    (forall i p p', nth_error l i = Some (Some p) -> nth_error l' i = Some (Some p') -> pext p p') ->
    pext (PT size off l) (PT size off l').
Definition pok (o : option ptree) (u : shape) (off : nat) : Prop := match o with Some p => pfit p u off | None => True end.
Definition poext (o : option ptree) (p : ptree) : Prop := match o with Some p0 => pext p0 p | None => True end.

Section PInd.
Variable P : ptree -> Prop.
Hypothesis step : forall size off l, (forall p, In (Some p) l -> P p) -> P (PT size off l).
Fixpoint pt_ind' (p : ptree) : P p.
Proof.
  destruct p as [size off l]. apply step. induction l as [|[q|] l IH]; intros p []; try discriminate.
  - injection H as <-. apply pt_ind'.
  - apply IH, H.
  - apply IH, H.
Defined.
End PInd.
Lemma pext_refl p : pext p p.
Proof.
  induction p as [size off l IH] using pt_ind'. apply pext_sup; [reflexivity|eauto|]. intros i p p' H1 H2. rewrite H1 in H2. injection H2 as <-.
  apply IH. eapply nth_error_In. exact H1.
Qed.
Lemma pext_trans p : forall q r, pext p q -> pext q r -> pext p r.
Proof.
  induction p as [size off l IH] using pt_ind'. intros q r H1 H2. inversion H1 as [? ? l1|? ? ? l1 A1 A2 A3]; subst.
  - inversion H2; subst; apply pext_leaf.
  - inversion H2 as [? ? l2|? ? ? l2 B1 B2 B3]; subst.
    + destruct l; [|discriminate]. apply pext_leaf.
    + apply pext_sup; [congruence|intros i p Hp; destruct (A2 i p Hp) as [p' Hp']; eauto|].
      intros i p p'' H3 H4. destruct (A2 i p H3) as [p' Hp']. eapply IH; [eapply nth_error_In; exact H3|eapply A3; eassumption|eapply B3; eassumption].
Qed.
Lemma pext_hd p q : pext p q -> p_size q = p_size p /\ p_off q = p_off p.
Proof. intros []; split; reflexivity. Qed.
Lemma pfit_hd p u off : pfit p u off -> p_size p = ssize u /\ p_off p = off.
Proof. intros []; split; reflexivity. Qed.

(** The cluster with a relative path *)
Fixpoint plook (p : ptree) (rel : list nat) : option ptree :=
  match rel with
  | [] => Some p
  | i :: rel => match plook p rel with
                | Some x => match nth_error (p_son x) i with Some (Some y) => Some y | _ => None end
                | None => None
                end
  end.
Lemma plook_ext p p' rel : pext p p' -> forall x, plook p rel = Some x -> exists x', plook p' rel = Some x' /\ pext x x'.
Proof.
  intros He. induction rel as [|i rel IH]; intros x; cbn.
  - intros [= <-]. eauto.
  - destruct (plook p rel) as [y|]; [|discriminate]. destruct (IH y eq_refl) as (y' & E & Hy). rewrite E.
    destruct (nth_error (p_son y) i) as [[z|]|] eqn:Ez; try discriminate. intros [= <-].
    inversion Hy as [? ? l1|? ? l0 l1 A1 A2 A3]; subst; cbn in Ez; [destruct i; discriminate|].
    destruct (A2 i z Ez) as [z' Ez']. cbn. rewrite Ez'. exists z'. split; [reflexivity|]. eapply A3; eassumption.
Qed.
Lemma plook_son p i p' rel : nth_error (p_son p) i = Some (Some p') -> plook p (rel ++ [i]) = plook p' rel.
Proof. intros H. induction rel as [|k rel IH]; cbn; [rewrite H; reflexivity|]. rewrite IH. reflexivity. Qed.

(** Lists of sons *)
Definition slots (off : nat) (Rs : list shape) (rl : list (option ptree)) : Prop :=
  forall i u p, nth_error Rs i = Some u -> nth_error rl i = Some (Some p) -> pfit p u (off + nsum i (ssz Rs)).
Definition sext (l l' : list (option ptree)) : Prop :=
  forall i p, nth_error l i = Some (Some p) -> exists p', nth_error l' i = Some (Some p') /\ pext p p'.
Lemma sext_refl l : sext l l.
Proof. intros i p H. exists p. split; [exact H|apply pext_refl]. Qed.
Lemma sext_trans l l1 l2 : sext l l1 -> sext l1 l2 -> sext l l2.
Proof. intros H1 H2 i p H. destruct (H1 i p H) as (q & Hq & E1). destruct (H2 i q Hq) as (r & Hr & E2). exists r. split; [exact Hr|eapply pext_trans; eassumption]. Qed.
Lemma sext_upd l i o p : nth_error l i = Some o -> poext o p -> sext l (lupd l i (Some p)).
Proof.
  intros Ho Hp k q Hq. rewrite lupd_nth. destruct (Nat.eqb_spec k i) as [->|Hne]; cbn [andb].
  - rewrite Ho in Hq. injection Hq as ->. cbn in Hp. pose proof (nth_lt _ _ _ Ho) as Hlt. apply Nat.ltb_lt in Hlt. rewrite Hlt. exists p. split; [reflexivity|exact Hp].
  - exists q. split; [exact Hq|apply pext_refl].
Qed.
Lemma slots_upd off Rs l i u p : slots off Rs l -> nth_error Rs i = Some u -> pfit p u (off + nsum i (ssz Rs)) -> slots off Rs (lupd l i (Some p)).
Proof.
  intros H Hu Hp k v q Hv Hq. rewrite lupd_nth in Hq. destruct (Nat.eqb_spec k i) as [->|Hne]; cbn [andb] in Hq; [|eapply H; eassumption].
  destruct (i <? List.length l); [|eapply H; eassumption]. injection Hq as <-. rewrite Hu in Hv. injection Hv as <-. exact Hp.
Qed.
Lemma lupd_at {A} (l : list A) i x o : nth_error l i = Some o -> nth_error (lupd l i x) i = Some x.
Proof. intros H. rewrite lupd_nth, Nat.eqb_refl. cbn [andb]. pose proof (nth_lt _ _ _ H) as Hlt. apply Nat.ltb_lt in Hlt. rewrite Hlt. reflexivity. Qed.
(** The complete cluster *)
Lemma psup_ok p u off Rs l l0 : pfit p u off -> u = Shp (nsum (List.length Rs) (ssz Rs)) Rs -> List.length l = List.length Rs -> slots off Rs l ->
  (forall i, i < List.length l -> exists p, nth_error l i = Some (Some p)) ->
  sext l0 l -> (p_son p = [] \/ l0 = p_son p) ->
  pfit (PT (p_size p) (p_off p) l) u off /\ pext p (PT (p_size p) (p_off p) l).
Proof.
  intros Hp Hu Hl Hs Ha He H0. destruct (pfit_hd _ _ _ Hp) as [E1 E2]. split.
  - subst u. rewrite E1, E2. cbn [ssize]. apply pfit_sup; auto.
  - destruct p as [size o' l1]. cbn [p_size p_off p_son] in *. destruct H0 as [->|E0]; [apply pext_leaf|]. subst l0.
    subst u. inversion Hp as [|? ? ? ? A1 A2 A3 A4]; subst; [apply pext_leaf|].
    apply pext_sup; [congruence|intros i q Hq; destruct (He i q Hq) as (q' & Hq' & _); eauto|].
    intros i q q' X1 X2. destruct (He i q X1) as (q2 & X3 & X4). rewrite X2 in X3. injection X3 as <-. exact X4.
Qed.

Section P3.
Context {K : fops} {G : ofops} (ft : ftext K).
Implicit Types (m : mem K) (h : hmatrix G) (d : hdata K).
Local Notation hmx := (hmatrix G).
Local Notation hd := (hdata K).

Lemma pref_ext rp p p' : pext p p' -> pref (G := G) rp p' = pref rp p.
Proof. intros H. destruct (pext_hd _ _ H) as [E1 E2]. unfold pref. rewrite E1, E2. reflexivity. Qed.

(** The clusters of all submatrices are found in the trees. *)
Definition hpos h (rp : list nat) (p : ptree) (cp : list nat) (q : ptree) : Prop := forall s, In s (hnodes h) ->
  (exists rel x, hm_rc s = pref (rel ++ rp) x /\ plook p rel = Some x) /\ (exists rel x, hm_cc s = pref (rel ++ cp) x /\ plook q rel = Some x).
Definition hpaths h : Prop := forall s l, In s (hnodes h) -> hm_son s = Some l -> forall i j t, i < hm_rsons s -> nth_error l (i + j * hm_rsons s) = Some t ->
  cp_path (hm_rc t) = i :: cp_path (hm_rc s) /\ cp_path (hm_cc t) = j :: cp_path (hm_cc s).
Lemma hpos_ext h rp p cp q p' q' : hpos h rp p cp q -> pext p p' -> pext q q' -> hpos h rp p' cp q'.
Proof.
  intros H E1 E2 s Hs. destruct (H s Hs) as [(r1 & x1 & A1 & A2) (r2 & x2 & B1 & B2)]. split.
  - destruct (plook_ext _ _ _ E1 _ A2) as (x & Hx & Ex). exists r1, x. split; [rewrite (pref_ext _ _ _ Ex); exact A1|exact Hx].
  - destruct (plook_ext _ _ _ E2 _ B2) as (x & Hx & Ex). exists r2, x. split; [rewrite (pref_ext _ _ _ Ex); exact B1|exact Hx].
Qed.

Definition rinfo m h d (rp cp : list nat) (p q : ptree) : Prop :=
  hm_rc h = pref rp p /\ hm_cc h = pref cp q /\ content m h d /\ hpos h rp p cp q /\ hpaths h /\ hplaced h /\ hstr m h /\ hdesc_ok h.

Lemma content_blk W h : forall m m' d, content m h d -> keeps W m m' -> (forall a, In (fst a) (hblocks h) -> ~ W a) -> content m' h d.
Proof.
  induction h as [h IH] using hm_rect'. intros m m' d Hc Hk Hd.
  assert (HA : forall (A : mat) f, mval m A f -> In (mblk A) (hblocks h) -> mval m' A f).
  { intros A f HA Hin. eapply mval_keeps; [exact HA|exact Hk|]. intros a Ha Hw. apply (Hd a); [|exact Hw]. apply inm_blk in Ha. rewrite Ha. exact Hin. }
  destruct Hc as [rc cc r ds A B H1 H2 H3 H4 H5 H6|rc cc f ds F H1 H2 H3|rc cc l rs cs ds ld H1 H2].
  - constructor; auto; apply HA; auto; cbn; auto.
  - constructor; auto; apply HA; auto; cbn; auto.
  - constructor; [exact H1|]. pose proof (Forall2_len _ _ _ H2). apply Forall2_nth_error; [assumption|]. intros k x y Hx Hy.
    eapply (IH l x eq_refl); [eapply nth_error_In; exact Hx|eapply HmP5.Forall2_nth; eassumption|exact Hk|].
    intros a Ha. apply Hd. cbn. apply in_flat_map. exists x. split; [eapply nth_error_In; exact Hx|exact Ha].
Qed.
Lemma rinfo_keeps m m' h d rp cp p q : rinfo m h d rp cp p q -> keeps (fun a => next m <= fst a) m m' -> rinfo m' h d rp cp p q.
Proof.
  intros (H1 & H2 & H3 & H4 & H5 & H6 & H7 & H8) Hk.
  assert (Hd : forall a : addr, In (fst a) (hblocks h) -> ~ next m <= fst a) by (intros a Ha; pose proof (hstr_bound _ _ _ H7 Ha); lia).
  repeat (split; [assumption|]). split; [eapply content_blk; eassumption|]. repeat (split; [assumption|]). split; [eapply hstr_blk; eassumption|exact H8].
Qed.
Lemma rinfo_ext m h d rp cp p q p' q' : rinfo m h d rp cp p q -> pext p p' -> pext q q' -> rinfo m h d rp cp p' q'.
Proof.
  intros (H1 & H2 & H3 & H4 & H5 & H6 & H7 & H8) E1 E2. split; [rewrite (pref_ext _ _ _ E1); exact H1|]. split; [rewrite (pref_ext _ _ _ E2); exact H2|].
  split; [exact H3|]. split; [eapply hpos_ext; eassumption|]. auto.
Qed.

(** ** Entries *)
Lemma fgets_print x rest : ft_good ft x -> fgets 79 (ft_print ft x ++ nl :: rest) = Some (ft_print ft x ++ [nl], rest).
Proof. intros (H1 & H2 & _). apply fgets_line; [exact H1|lia]. Qed.

Lemma wp_read_entries m (A : mat) F rows cols rest : malloc m A -> mwf A -> mrows A = rows -> mcols A = cols ->
  (forall i j, i < rows -> j < cols -> ft_good ft (F i j)) ->
  forall Q : text -> mem K -> Prop, (forall m', mval m' A F -> keeps (inm A) m m' -> Q rest m') ->
  wp TT TT (read_entries ft rows cols A (etext ft rows cols F ++ rest)) m Q.
Proof.
  intros HA Hw Er Ec HF Q HQ. unfold read_entries, etext.
  apply (wp_forS (fun j t m1 => t = scat j (cols - j) (fun j => scat 0 rows (fun i => ft_print ft (F i j) ++ [nl])) ++ rest /\ keeps (inm A) m m1 /\ malloc m1 A /\
    (forall i j', i < rows -> j' < j -> get m1 (ma A i j') = Val (F i j')))).
  - rewrite Nat.sub_0_r. split; [reflexivity|]. split; [apply keeps_refl|]. split; [exact HA|]. intros; lia.
  - intros j t m1 Hj (-> & K1 & M1 & V1). cbn in Hj. replace (cols - j) with (S (cols - S j)) by lia. rewrite scat_S, <- app_assoc.
    set (rest' := scat (S j) (cols - S j) _ ++ rest).
    apply (wp_forS (fun i t m1 => t = scat i (rows - i) (fun i => ft_print ft (F i j) ++ [nl]) ++ rest' /\ keeps (inm A) m m1 /\ malloc m1 A /\
      (forall i' j', i' < rows -> j' < j \/ j' = j /\ i' < i -> get m1 (ma A i' j') = Val (F i' j')))).
    + rewrite Nat.sub_0_r. split; [reflexivity|]. split; [exact K1|]. split; [exact M1|]. intros i' j' H1 [H2|H2]; [auto|lia].
    + intros i t m2 Hi (-> & K2 & M2 & V2). cbn in Hi. replace (rows - i) with (S (rows - S i)) by lia. rewrite scat_S, <- !app_assoc. cbn [app].
      unfold gets. rewrite fgets_print by (apply HF; lia). cbn [bind fst snd].
      destruct (HF i j) as (_ & _ & Es); [lia|lia|]. rewrite Es. cbn [passert Nat.eqb bind].
      apply wp_bind. apply wp_mstore; [exact M2|lia|lia|intros a _; exact I|]. change (1 =? 1) with true. cbn [passert bind wp]. split; [reflexivity|].
      split; [apply keeps_upd_r; [exact K2|exists i, j; repeat split; lia]|]. split; [apply malloc_upd; exact M2|].
      intros i' j' H1 H2. destruct (Nat.eq_dec j' j) as [->|Hne]; [destruct (Nat.eq_dec i' i) as [->|Hni]|].
      * rewrite get_upd by (apply M2; lia). destruct (addr_eqb_spec (ma A i j) (ma A i j)); congruence.
      * rewrite get_upd_other; [apply V2; [lia|right; lia]|]. intros E. apply ma_inj in E; try lia; auto.
      * rewrite get_upd_other; [apply V2; [lia|left; lia]|]. intros E. apply ma_inj in E; try lia; auto.
    + intros t m2 (-> & K2 & M2 & V2). cbn [Nat.add] in *. rewrite Nat.sub_diag. cbn [scat seq flat_map app]. split; [reflexivity|]. split; [exact K2|]. split; [exact M2|].
      intros i j' H1 H2. apply V2; [exact H1|]. lia.
  - intros t m1 (-> & K1 & M1 & V1). cbn [Nat.add] in *. rewrite Nat.sub_diag. cbn [scat seq flat_map app]. apply HQ; [|exact K1].
    intros i j Hi Hj. apply V1; lia.
Qed.
End P3.
