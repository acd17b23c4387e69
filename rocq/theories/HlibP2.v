(** * Proofs about text files: writing *)
From Coq Require Import NArith Ascii String Arith Lia Bool List.
From Verif Require Import Fld Ord Prog Arr View Spec Loop Cluster Block BlockP Amatrix Rkmatrix RkSpec RkP Hmatrix HmSpec HmP HmP4 HmP5 Hlib HlibSpec HlibP.
Import ListNotations.

(** [f lo ++ ... ++ f (lo+n-1)] *)
Definition scat (lo n : nat) (f : nat -> text) : text := flat_map f (seq lo n).
Lemma scat_S lo n f : scat lo (S n) f = f lo ++ scat (S lo) n f.
Proof. reflexivity. Qed.
Lemma scat_end lo n f : scat lo (S n) f = scat lo n f ++ f (lo + n).
Proof. unfold scat. rewrite seq_S, flat_map_app. cbn. rewrite app_nil_r. reflexivity. Qed.
Lemma scat_ext lo n f g : (forall i, lo <= i < lo + n -> f i = g i) -> scat lo n f = scat lo n g.
Proof.
  unfold scat. revert lo. induction n as [|n IH]; intros lo H; [reflexivity|]. cbn. rewrite (H lo) by lia. f_equal. apply IH. intros i Hi. apply H. lia.
Qed.

Section P2.
Context {K : fops} {G : ofops} (ft : ftext K).
Implicit Types (m : mem K) (h : hmatrix G) (d : hdata K).
Local Notation hmx := (hmatrix G).
Local Notation hd := (hdata K).

Section DInd.
Variable P : hd -> Prop.
Hypothesis step : forall d, (forall rows cols rs cs l, d = DSup rows cols rs cs l -> forall s, In s l -> P s) -> P d.
Fixpoint hd_ind' (d : hd) : P d.
Proof.
  apply step. destruct d as [| |rows cols rs cs l]; try discriminate. intros ? ? ? ? l' E s. injection E as <- <- <- <- <-.
  revert s. induction l as [|a l IH]; intros s []; [rewrite <- H; apply hd_ind'|apply IH, H].
Defined.
End DInd.

Definition drows d := match d with DRk r _ _ _ _ => r | DFull r _ _ => r | DSup r _ _ _ _ => r end.
Definition dcols d := match d with DRk _ c _ _ _ => c | DFull _ c _ => c | DSup _ c _ _ _ => c end.
Definition d0 : hd := DFull 0 0 (fun _ _ => f0).

Definition etext (rows cols : nat) (F : nat -> nat -> K) : text :=
  scat 0 cols (fun j => scat 0 rows (fun i => ft_print ft (F i j) ++ [nl])).
Definition dheader (ty roff coff rows cols : nat) : text :=
  uline "Type " ty ++ uline "row_offset = " roff ++ uline "col_offset = " coff ++ uline "rows = " rows ++ uline "cols = " cols.
Definition dh (l : list hd) (i : nat) : nat := drows (nth i l d0).
Definition dw (rs : nat) (l : list hd) (j : nat) : nat := dcols (nth (j * rs) l d0).
Fixpoint dtext d (roff coff : nat) : text :=
  match d with
  | DRk rows cols k A B => dheader 1 roff coff rows cols ++ uline "k = " k ++ uline "kt = " k ++ etext rows k A ++ etext cols k B
  | DFull rows cols F => dheader 2 roff coff rows cols ++ etext rows cols F
  | DSup rows cols rs cs l =>
      dheader 3 roff coff rows cols ++ uline "block_rows = " rs ++ uline "block_cols = " cs ++
      scat 0 cs (fun j => scat 0 rs (fun i =>
        nth (i + j * rs) (map dtext l) (fun _ _ => []) (roff + nsum i (dh l)) (coff + nsum j (dw rs l))))
  end.

(** Sizes and splittings fit. *)
Inductive dfits : hd -> shape -> shape -> Prop :=
| dfits_rk k A B u v : dfits (DRk (ssize u) (ssize v) k A B) u v
| dfits_full F u v : dfits (DFull (ssize u) (ssize v) F) u v
| dfits_sup rs cs l rows cols Rs Cs :
    0 < rs -> 0 < cs -> List.length l = rs * cs -> List.length Rs = rs -> List.length Cs = cs ->
    (forall i j s u v, nth_error l (i + j * rs) = Some s -> nth_error Rs i = Some u -> nth_error Cs j = Some v -> dfits s u v) ->
    nsum rs (dh l) = rows -> nsum cs (dw rs l) = cols ->
    dfits (DSup rows cols rs cs l) (Shp rows Rs) (Shp cols Cs).

Lemma dfits_size d u v : dfits d u v -> drows d = ssize u /\ dcols d = ssize v.
Proof. intros []; split; reflexivity. Qed.
Lemma content_size m h d : content m h d -> hrows h = drows d /\ hcols h = dcols d.
Proof. intros []; split; reflexivity. Qed.

Lemma dfits_parts rs cs l rows cols Rs Cs i j s : dfits (DSup rows cols rs cs l) (Shp rows Rs) (Shp cols Cs) -> i < rs -> j < cs ->
  nth_error l (i + j * rs) = Some s -> drows s = dh l i /\ dcols s = dw rs l j.
Proof.
  intros H Hi Hj Hs. inversion H as [| |rs' cs' l' rows' cols' Rs' Cs' H1 H2 H3 H4 H5 H6 H7 H8]; subst. clear H.
  destruct (nth_error Rs i) as [u|] eqn:Eu; [|apply nth_error_None in Eu; lia]. destruct (nth_error Cs j) as [v|] eqn:Ev; [|apply nth_error_None in Ev; lia].
  destruct (nth_error Rs 0) as [u0|] eqn:Eu0; [|apply nth_error_None in Eu0; lia]. destruct (nth_error Cs 0) as [v0|] eqn:Ev0; [|apply nth_error_None in Ev0; lia].
  destruct (dfits_size _ _ _ (H6 i j s u v Hs Eu Ev)) as [E1 E2].
  assert (P1 : i < List.length l) by nia. assert (P2 : j * List.length Rs < List.length l) by nia.
  destruct (dfits_size _ _ _ (H6 i 0 (nth i l d0) u v0 ltac:(rewrite Nat.mul_0_l, Nat.add_0_r; apply nth_error_nth'; exact P1) Eu Ev0)) as [E3 _].
  destruct (dfits_size _ _ _ (H6 0 j (nth (j * List.length Rs) l d0) u0 v ltac:(cbn [Nat.add]; apply nth_error_nth'; exact P2) Eu0 Ev)) as [_ E4].
  unfold dh, dw. split; congruence.
Qed.

(** ** Writing *)
Lemma wp_write_entries m (A : mat) F rows cols : mval m A F -> mrows A = rows -> mcols A = cols ->
  forall Q : text -> mem K -> Prop, Q (etext rows cols F) m -> wp TT TT (write_entries ft rows cols A) m Q.
Proof.
  intros HA Er Ec Q HQ. unfold write_entries.
  apply (wp_forS (fun j t m1 => m1 = m /\ t = scat 0 j (fun j => scat 0 rows (fun i => ft_print ft (F i j) ++ [nl])))).
  - split; reflexivity.
  - intros j t m1 [_ Hj] [-> ->]. cbn in Hj.
    apply (wp_forS (fun i t m1 => m1 = m /\ t = scat 0 j (fun j => scat 0 rows (fun i => ft_print ft (F i j) ++ [nl])) ++ scat 0 i (fun i => ft_print ft (F i j) ++ [nl]))).
    + split; [reflexivity|]. rewrite app_nil_r. reflexivity.
    + intros i t m1 [_ Hi] [-> ->]. cbn in Hi. apply wp_bind. eapply wp_mload; [exact HA|lia|lia|left; exact I|]. cbn [wp]. split; [reflexivity|].
      rewrite scat_end, <- app_assoc. reflexivity.
    + intros t m1 [-> ->]. split; [reflexivity|]. rewrite scat_end. reflexivity.
  - intros t m1 [-> ->]. exact HQ.
Qed.

Lemma nth_map_sget {A B X} (f : A -> B) l k a (c : B -> prog K X) : nth_error l k = Some a -> (x <- sget (Some (map f l)) k ;; c x) = c (f a).
Proof. intros H. unfold sget. rewrite nth_error_map, H. reflexivity. Qed.

Lemma wp_write_part h : forall d u v roff coff m, content m h d -> dfits d u v ->
  forall Q : text -> mem K -> Prop, Q (dtext d roff coff) m -> wp TT TT (write_hlib_part ft h roff coff) m Q.
Proof.
  induction h as [h IH] using hm_rect'. intros d u v roff coff m Hc Hf Q HQ.
  destruct Hc as [rc cc r ds A B H1 H2 H3 H4 H5 H6|rc cc f ds F H1 H2 H3|rc cc l rs cs ds ld H1 H2]; cbn [write_hlib_part].
  - rewrite H1, H2, H3, H4, !Nat.eqb_refl. cbn [passert bind]. apply wp_bind. eapply wp_write_entries; [exact H5|assumption|assumption|].
    apply wp_bind. eapply wp_write_entries; [exact H6|assumption|assumption|]. cbn [wp]. cbn [dtext] in HQ. unfold dheader in HQ. rewrite <- !app_assoc in HQ. exact HQ.
  - rewrite H1, H2. apply wp_bind. eapply wp_write_entries; [exact H3|assumption|assumption|]. cbn [wp]. cbn [dtext] in HQ. unfold dheader in HQ. rewrite <- !app_assoc in HQ. exact HQ.
  - pose proof (fun i j s => dfits_parts rs cs ld (csz rc) (csz cc) (match u with Shp _ x => x end) (match v with Shp _ x => x end) i j s) as Hp.
    inversion Hf as [| |rs' cs' l' rows' cols' Rs Cs P1 P2 P3 P4 P5 P6 P7 P8]; subst u v rs' cs' l' rows' cols'. specialize (fun i j s => Hp i j s Hf).
    assert (Hl : forall k, k < rs * cs -> exists s e, nth_error l k = Some s /\ nth_error ld k = Some e /\ content m s e).
    { intros k Hk. destruct (nth_error l k) as [s|] eqn:E1; [|apply nth_error_None in E1; lia]. destruct (nth_error ld k) as [e|] eqn:E2; [|apply nth_error_None in E2; lia].
      exists s, e. split; [reflexivity|]. split; [reflexivity|]. exact (Forall2_nth _ _ _ _ _ _ H2 E1 E2). }
    set (T := fun i j => nth (i + j * rs) (map dtext ld) (fun _ _ => []) (roff + nsum i (dh ld)) (coff + nsum j (dw rs ld))).
    set (hdr := uline "Type " 3 ++ uline "row_offset = " roff ++ uline "col_offset = " coff ++ uline "rows = " (csz rc) ++ uline "cols = " (csz cc) ++
      uline "block_rows = " rs ++ uline "block_cols = " cs).
    apply wp_bind.
    apply (wp_forS (fun j (st : text * nat) m1 => m1 = m /\ st = (hdr ++ scat 0 j (fun j => scat 0 rs (fun i => T i j)), coff + nsum j (dw rs ld)))).
    + split; [reflexivity|]. cbn. rewrite app_nil_r, Nat.add_0_r. reflexivity.
    + intros j st m1 [_ Hj] [-> ->]. cbn in Hj. apply wp_bind.
      apply (wp_forS (fun i (st : text * nat) m1 => m1 = m /\ st = ((hdr ++ scat 0 j (fun j => scat 0 rs (fun i => T i j))) ++ scat 0 i (fun i => T i j), roff + nsum i (dh ld)))).
      * split; [reflexivity|]. cbn. rewrite app_nil_r, Nat.add_0_r. reflexivity.
      * intros i st m1 [_ Hi] [-> ->]. cbn in Hi.
        destruct (Hl (i + j * rs)) as (s & e & Es & Ee & Hc); [nia|]. destruct (Hl i) as (s2 & e2 & Es2 & Ee2 & Hc2); [nia|].
        rewrite (nth_map_sget _ _ _ s _ Es). cbn [snd]. apply wp_bind.
        destruct (nth_error Rs i) as [u'|] eqn:Eu; [|apply nth_error_None in Eu; lia]. destruct (nth_error Cs j) as [v'|] eqn:Ev; [|apply nth_error_None in Ev; lia].
        eapply (IH l s eq_refl); [eapply nth_error_In; exact Es|exact Hc|exact (P6 i j e u' v' Ee Eu Ev)|].
        rewrite (nth_map_sget _ _ _ s2 _ Es2). cbn [fst wp]. split; [reflexivity|]. cbn [nsum]. f_equal.
        -- rewrite scat_end, <- !app_assoc. do 2 f_equal. cbn [Nat.add]. f_equal. unfold T.
           rewrite (nth_error_nth (map dtext ld) (i + j * rs) (fun _ _ => []) (x := dtext e)); [reflexivity|]. rewrite nth_error_map, Ee. reflexivity.
        -- rewrite (proj1 (content_size _ _ _ Hc2)). unfold dh at 3. rewrite (nth_error_nth ld i d0 Ee2). lia.
      * intros st m1 [-> ->]. cbn [Nat.add snd fst]. rewrite P7, Nat.eqb_refl. cbn [passert bind].
        destruct (Hl (j * rs)) as (s & e & Es & Ee & Hc); [nia|]. rewrite (nth_map_sget _ _ _ s _ Es). cbn [fst wp]. split; [reflexivity|]. cbn [nsum]. f_equal.
        -- rewrite scat_end. cbn [Nat.add]. rewrite <- app_assoc. reflexivity.
        -- rewrite (proj2 (content_size _ _ _ Hc)). unfold dw at 3. rewrite (nth_error_nth ld (j * rs) d0 Ee). lia.
    + intros st m1 [-> ->]. cbn [Nat.add snd fst]. rewrite P8, Nat.eqb_refl. cbn [passert bind wp]. unfold hdr. rewrite <- !app_assoc.
      cbn [dtext] in HQ. unfold dheader in HQ. rewrite <- !app_assoc in HQ. exact HQ.
Qed.

(** ** Where data come from *)
Lemma Forall2_ex {A B} (P : A -> B -> Prop) l : (forall a, In a l -> exists b, P a b) -> exists l', Forall2 P l l'.
Proof.
  induction l as [|a l IH]; intros H; [exists []; constructor|]. destruct (H a (or_introl eq_refl)) as [b Hb].
  destruct IH as [l' Hl']; [intros; apply H; right; assumption|]. exists (b :: l'). constructor; assumption.
Qed.
Lemma hrep_content h : forall m D, hrep m h D -> exists d, content m h d.
Proof.
  induction h as [h IH] using hm_rect'. intros m D Hr.
  destruct Hr as [rc cc r ds D H1 H2 H3|rc cc a ds D H1 H2 H3|rc cc l rsons csons ds hs ws D P1 P2 P3 P4 P5 P6 P7].
  - destruct H3 as (A & B & H3 & H4 & H5 & H6 & H7). eexists. constructor; eassumption.
  - eexists. constructor; eassumption.
  - destruct (Forall2_ex (content m) l) as [ld Hld].
    { intros s Hs. destruct (In_nth_error _ _ Hs) as [k Hk]. pose proof (nth_lt _ _ _ Hk) as Hlt. rewrite P3 in Hlt.
      assert (Ek : k = k mod rsons + (k / rsons) * rsons) by (rewrite Nat.mul_comm, Nat.add_comm; apply Nat.div_mod; lia).
      eapply (IH l s eq_refl Hs). apply (P7 (k mod rsons) (k / rsons)); [apply Nat.mod_upper_bound; lia|apply Nat.div_lt_upper_bound; nia|rewrite <- Ek; exact Hk]. }
    eexists. constructor; eassumption.
Qed.
Lemma content_fits h : forall m D d u v, hrep m h D -> content m h d -> hfits h u v -> dfits d u v.
Proof.
  induction h as [h IH] using hm_rect'. intros m D d u v Hr Hc Hf.
  destruct Hr as [rc cc r ds D H1 H2 H3|rc cc a ds D H1 H2 H3|rc cc l rsons csons ds hs ws D P1 P2 P3 P4 P5 P6 P7].
  - inversion Hc; subst. inversion Hf as [h0 u0 v0 F1 F2 F3|]; subst. unfold hrows, hcols in F2, F3. cbn in F2, F3. rewrite F2, F3. constructor.
  - inversion Hc; subst. inversion Hf as [h0 u0 v0 F1 F2 F3|]; subst. unfold hrows, hcols in F2, F3. cbn in F2, F3. rewrite F2, F3. constructor.
  - inversion Hc as [| |rc' cc' l' rs' cs' ds' ld C1 C2]; subst rc' cc' l' rs' cs' ds' d. inversion Hf as [? ? ? F1|rc' cc' r' f' l' rs' cs' ds' Rs Cs F1 F2 F3]; [discriminate|subst rc' cc' r' f' l' rs' cs' ds' u v].
    assert (Ll : List.length ld = rsons * csons) by (rewrite <- P3; symmetry; eapply BlockP.Forall2_len; exact C2).
    assert (Hl : forall k e, nth_error ld k = Some e -> exists s, nth_error l k = Some s /\ content m s e).
    { intros k e He. destruct (nth_error l k) as [s|] eqn:Es; [|apply nth_error_None in Es; apply nth_lt in He; lia]. exists s. split; [reflexivity|]. exact (Forall2_nth _ _ _ _ _ _ C2 Es He). }
    apply dfits_sup; try assumption.
    + intros i j e u v He Hu Hv. destruct (Hl _ _ He) as (s & Es & Hs). 
      eapply (IH l s eq_refl); [eapply nth_error_In; exact Es|apply (P7 i j s)|exact Hs|eapply F3; eassumption]; [apply nth_lt in Hu; lia|apply nth_lt in Hv; lia|exact Es].
    + rewrite <- P4. apply nsum_fit with (n := rsons); [|lia]. intros i Hi. unfold dh.
      destruct (nth_error ld i) as [e|] eqn:Ee; [|apply nth_error_None in Ee; nia]. rewrite (nth_error_nth ld i d0 Ee).
      destruct (Hl _ _ Ee) as (s & Es & Hs). rewrite <- (proj1 (content_size _ _ _ Hs)). apply (P6 i 0 s Hi); [lia|]. rewrite Nat.mul_0_l, Nat.add_0_r. exact Es.
    + rewrite <- P5. apply nsum_fit with (n := csons); [|lia]. intros j Hj. unfold dw.
      destruct (nth_error ld (j * rsons)) as [e|] eqn:Ee; [|apply nth_error_None in Ee; nia]. rewrite (nth_error_nth ld (j * rsons) d0 Ee).
      destruct (Hl _ _ Ee) as (s & Es & Hs). rewrite <- (proj2 (content_size _ _ _ Hs)). apply (P6 0 j s); [lia|exact Hj|exact Es].
Qed.
End P2.
