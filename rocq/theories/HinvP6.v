(** * Triangular parts of H-matrices: copies *)
From Coq Require Import Arith Lia List Bool.
From Verif Require Import Fld Ord Prog Arr View Loop Line Spec FactorSpec Cluster Block BlockP Avector Amatrix AvectorP AmatrixP Rkmatrix RkSpec RkP Factor FactorP FactorP3
  AmatrixP2 Hmatrix HmSpec HmP HmP3 HmP4 HmP5 HlibSpec Hinv HinvSpec.
Import ListNotations.
Local Open Scope nat_scope.

Section P.
Context {K : fops} {G : ofops}.
Local Notation hmx := (hmatrix G).
Implicit Types (m : mem K) (h s : hmx) (l lb : list hmx) (D F : nat -> nat -> K) (rc : cptr G).

(** ** Filling a matrix column by column *)
Section Fill.
Context (m : mem K) (B : mat) (F : nat -> nat -> K) (Hw : mwf B).
Definition filled (i j : nat) m1 : Prop := malloc m1 B /\ keeps (inm B) m m1 /\ pval m1 B (fun i' j' => j' < j \/ j' = j /\ i' < i) F.

Lemma wp_fill i j (v : K) m1 (Q : unit -> mem K -> Prop) : i < mrows B -> j < mcols B -> v = F i j -> filled i j m1 ->
  (forall m2, filled (S i) j m2 -> Q tt m2) -> wp TT TT (mstore B i j v) m1 Q.
Proof.
  intros Hi Hj -> (P1 & P2 & P3) HQ. set (v := F i j).
  assert (X1 : forall i' j', i' < mrows B -> i' <> i \/ j' <> j -> get (upd m1 (ma B i j) v) (ma B i' j') = get m1 (ma B i' j')).
  { intros i' j' Hi' Hne. apply get_upd_other. intros E. apply ma_inj in E; [lia|exact Hw|lia|lia]. }
  assert (X2 : get (upd m1 (ma B i j) v) (ma B i j) = Val v) by (rewrite get_upd by (apply P1; assumption); destruct (addr_eqb_spec (ma B i j) (ma B i j)); congruence).
  eapply wp_mstore; [exact P1|exact Hi|exact Hj|intros ? ?; exact I|]. apply HQ. split; [|split].
  - intros i' j' Hi' Hj'. destruct (Nat.eq_dec i' i) as [->|]; [destruct (Nat.eq_dec j' j) as [->|]; [rewrite X2; discriminate|]|]; rewrite X1 by (try assumption; lia); apply P1; assumption.
  - apply keeps_upd_r; [exact P2|exists i, j; auto].
  - intros i' j' Hi' Hj' Hok. destruct (Nat.eq_dec j' j) as [->|Hne]; [destruct (Nat.eq_dec i' i) as [->|Hne]|].
    + exact X2.
    + rewrite X1 by (try assumption; lia). apply P3; [assumption|assumption|lia].
    + rewrite X1 by (try assumption; lia). apply P3; [assumption|assumption|lia].
Qed.

(** Part of a column *)
Lemma wp_fill_for i0 n j (body : nat -> prog K unit) m1 (Q : unit -> mem K -> Prop) : filled i0 j m1 ->
  (forall i m2 (Q' : unit -> mem K -> Prop), i0 <= i < i0 + n -> filled i j m2 -> (forall m3, filled (S i) j m3 -> Q' tt m3) -> wp TT TT (body i) m2 Q') ->
  (forall m2, filled (i0 + n) j m2 -> Q tt m2) -> wp TT TT (for_ i0 n body) m1 Q.
Proof.
  intros H0 Hs HQ. apply (wp_for (fun i => filled i j)); [exact H0| |exact HQ].
  intros i m2 Hi Hf. apply Hs; [exact Hi|exact Hf|auto].
Qed.
End Fill.

Lemma wp_copy_tri_fresh (lower aunit : bool) A B D m (Q : unit -> mem K -> Prop) :
  mwf B -> mval m A D -> malloc m B -> disj (inm A) (inm B) -> mrows A = mrows B -> mcols A = mrows B -> mcols B = mrows B ->
  (forall m', mval m' B (tripart lower aunit D) -> keeps (inm B) m m' -> Q tt m') ->
  wp TT TT (if lower then copy_lower_amatrix A aunit B else copy_upper_amatrix A aunit B) m Q.
Proof.
  intros Hw HA HB Hd E1 E2 E3 HQ. set (F := tripart lower aunit D). set (n := mrows B) in *.
  assert (Hend : forall m1, filled m B F 0 n m1 -> Q tt m1).
  { intros m1 (P1 & P2 & P3). apply HQ; [|exact P2]. intros i j Hi Hj. apply P3; [assumption|assumption|lia]. }
  assert (H0 : filled m B F 0 0 m) by (split; [exact HB|]; split; [apply keeps_refl|intros i j _ _ [?|[_ ?]]; lia]).
  assert (Hcol : forall j m1, filled m B F n j m1 -> filled m B F 0 (S j) m1).
  { intros j m1 (P1 & P2 & P3). split; [exact P1|]. split; [exact P2|]. intros i' j' Hi' Hj' Hok. apply P3; [assumption|assumption|]. fold n in Hi'. lia. }
  assert (Hput : forall i j (v : K) m1 (Q1 : unit -> mem K -> Prop), i < n -> j < n -> v = F i j -> filled m B F i j m1 -> (forall m2, filled m B F (S i) j m2 -> Q1 tt m2) -> wp TT TT (mstore B i j v) m1 Q1).
  { intros i j v m1 Q1 Hi Hj Hv. apply wp_fill; [exact Hw|exact Hi|lia|exact Hv]. }
  assert (Hcp : forall i j m1 (Q1 : unit -> mem K -> Prop), i < n -> j < n -> F i j = D i j -> filled m B F i j m1 -> (forall m2, filled m B F (S i) j m2 -> Q1 tt m2) -> wp TT TT (x <- mload A i j ;; mstore B i j x) m1 Q1).
  { intros i j m1 Q1 Hi Hj Hv Hf HQ1. apply wp_bind. assert (HA1 : mval m1 A D) by (eapply mval_keeps; [exact HA|apply Hf|exact Hd]).
    eapply wp_mload; [exact HA1|lia|lia|intros ? ?; left; exact I|]. apply Hput; auto. }
  destruct lower; [unfold copy_lower_amatrix|unfold copy_upper_amatrix]; cbv zeta; fold n; rewrite E1, E2, E3, !Nat.min_id.
  - apply wp_bind. apply (wp_for (fun j => filled m B F 0 j)); [exact H0| |].
    + intros j m1 Hj Hf. rewrite (Nat.min_r n j) by lia. apply wp_bind.
      apply (wp_fill_for m B F 0 j j); [exact Hf| |].
      * intros i m2 Q' Hi Hf2 HQ'. apply Hput; [lia|lia| |exact Hf2|exact HQ']. unfold F, tripart. destruct (Nat.eqb_spec i j); [lia|]. destruct (Nat.ltb_spec j i); [lia|reflexivity].
      * intros m2 Hf2. cbn [Nat.add] in Hf2. apply wp_bind.
        assert (Hrest : forall i m3, j <= i <= j + 1 -> (aunit = true -> i = j + 1) -> filled m B F i j m3 -> wp TT TT (for_ i (n - i) (fun i => x <- mload A i j ;; mstore B i j x)) m3 (fun _ m' => filled m B F 0 (S j) m')).
        { intros i m3 Hi Hu Hf3. apply (wp_fill_for m B F i (n - i) j); [exact Hf3| |].
          - intros p m4 Q' Hp Hf4 HQ'. apply Hcp; [lia|lia| |exact Hf4|exact HQ']. unfold F, tripart. destruct (Nat.eqb_spec p j) as [->|Hne].
            + destruct aunit; [|reflexivity]. specialize (Hu eq_refl). lia.
            + destruct (Nat.ltb_spec j p); [reflexivity|lia].
          - intros m4 Hf4. replace (i + (n - i)) with n in Hf4 by lia. apply Hcol, Hf4. }
        destruct (Nat.ltb_spec j n) as [_|]; [|lia]. rewrite Nat.eqb_refl. destruct aunit; cbn [andb].
        -- apply wp_bind. apply Hput; [lia|lia|unfold F, tripart; rewrite Nat.eqb_refl; reflexivity|exact Hf2|]. intros m3 Hf3. cbn [wp]. apply Hrest; [lia|auto|]. rewrite Nat.add_1_r. exact Hf3.
        -- cbn [wp]. apply Hrest; [lia|discriminate|exact Hf2].
    + intros m1 Hf. rewrite Nat.sub_diag. cbn [Nat.add] in Hf. apply (wp_for (fun _ m' => m' = m1)); [reflexivity|intros i m2 Hi; lia|intros m2 ->; apply Hend, Hf].
  - apply (wp_for (fun j => filled m B F 0 j)); [exact H0| |intros m1 Hf; apply Hend, Hf].
    intros j m1 Hj Hf. apply wp_bind.
    assert (Hrest : forall m3, filled m B F (j + 1) j m3 -> wp TT TT (for_ (j + 1) (n - (j + 1)) (fun i => mstore B i j f0)) m3 (fun _ m' => filled m B F 0 (S j) m')).
    { intros m3 Hf3. apply (wp_fill_for m B F (j + 1) (n - (j + 1)) j); [exact Hf3| |].
      - intros p m4 Q' Hp Hf4 HQ'. apply Hput; [lia|lia| |exact Hf4|exact HQ']. unfold F, tripart. destruct (Nat.eqb_spec p j); [lia|]. destruct (Nat.ltb_spec p j); [lia|reflexivity].
      - intros m4 Hf4. replace (j + 1 + (n - (j + 1))) with n in Hf4 by lia. apply Hcol, Hf4. }
    assert (HF : forall i, i < j -> F i j = D i j).
    { intros i Hi. unfold F, tripart. destruct (Nat.eqb_spec i j); [lia|]. destruct (Nat.ltb_spec i j); [reflexivity|lia]. }
    destruct aunit.
    + rewrite (Nat.min_r n j) by lia. apply wp_bind. apply (wp_fill_for m B F 0 j j); [exact Hf| |].
      * intros i m2 Q' Hi Hf2 HQ'. apply Hcp; [lia|lia|apply HF; lia|exact Hf2|exact HQ'].
      * intros m2 Hf2. cbn [Nat.add] in Hf2. destruct (Nat.ltb_spec j n) as [_|]; [|lia]. rewrite Nat.eqb_refl. cbn [andb].
        apply wp_bind. apply Hput; [lia|lia|unfold F, tripart; rewrite Nat.eqb_refl; reflexivity|exact Hf2|]. intros m3 Hf3. cbn [wp]. apply Hrest. rewrite Nat.add_1_r. exact Hf3.
    + rewrite (Nat.min_r n (j + 1)) by lia. apply wp_bind. apply (wp_fill_for m B F 0 (j + 1) j); [exact Hf| |].
      * intros i m2 Q' Hi Hf2 HQ'. apply Hcp; [lia|lia| |exact Hf2|exact HQ']. destruct (Nat.eq_dec i j) as [->|]; [unfold F, tripart; rewrite Nat.eqb_refl; reflexivity|apply HF; lia].
      * intros m2 Hf2. cbn [Nat.add] in Hf2. cbn [wp]. apply Hrest, Hf2.
Qed.

(** ** The loops over the submatrices *)
Lemma wp_trisons (lower : bool) (rec : list (prog K hmx)) rc cc n l (q : nat -> nat -> prog K hmx) (Inv : nat -> list hmx -> mem K -> Prop) m (Q : list hmx -> mem K -> Prop) :
  (forall j, j < n -> nth_error rec (j + j * n) = Some (q j j)) ->
  (forall i j, i < n -> j < n -> (if lower then i < j else j < i) -> q i j = (ri <- lift (cp_son rc i) ;; cj <- lift (cp_son cc j) ;; new_rk_hmatrix ri cj 0)) ->
  (forall i j, i < n -> j < n -> (if lower then j < i else i < j) -> q i j = (s <- sget (Some l) (i + j * n) ;; clone_hmatrix s)) ->
  Inv 0 [] m ->
  (forall i j lb m1, i < n -> j < n -> Inv (i + j * n) lb m1 -> wp TT TT (q i j) m1 (fun b m2 => Inv (S (i + j * n)) (lb ++ [b]) m2)) ->
  (forall lb m1, Inv (n * n) lb m1 -> Q lb m1) ->
  wp TT TT (clonetri_sons lower (Some rec) rc cc n l) m Q.
Proof.
  intros Hrec Hz Hf H0 Hs HQ. unfold clonetri_sons. cbv zeta.
  apply (wp_forS (fun j lb m => Inv (j * n) lb m)); [exact H0| |intros lb m1 H1; apply HQ; exact H1].
  intros j lb m1 [_ Hj] H1. cbn in Hj. apply wp_bind.
  apply (wp_forS (fun i lb m => Inv (i + j * n) lb m)); [exact H1| |].
  { intros i lb2 m2 [_ Hi] H2. cbn in Hi. apply wp_bind.
    replace (if lower then _ else _) with (q i j) by (destruct lower; [apply Hz|apply Hf]; lia).
    eapply wp_conseq; [apply Hs; [lia|exact Hj|exact H2]|]. cbv beta. intros b m3 H3. exact H3. }
  intros lb2 m2 H2. cbn [Nat.add] in H2. rewrite (sget_some _ _ _ (Hrec j Hj)). cbn [bind]. apply wp_bind.
  eapply wp_conseq; [apply Hs; [exact Hj|exact Hj|exact H2]|]. cbv beta. intros b m3 H3.
  apply (wp_forS (fun i lb m => Inv (i + j * n) lb m)).
  - rewrite Nat.add_1_r. exact H3.
  - intros i lb4 m4 Hi H4. apply wp_bind.
    replace (if lower then _ else _) with (q i j) by (destruct lower; [apply Hf|apply Hz]; lia).
    eapply wp_conseq; [apply Hs; [lia|exact Hj|exact H4]|]. cbv beta. intros b' m5 H5. exact H5.
  - intros lb4 m4 H4. replace (j + 1 + (n - (j + 1)) + j * n) with (S j * n) in H4 by lia. exact H4.
Qed.

(** What is known about a submatrix of the result *)
Definition tson (lower aunit : bool) (D : nat -> nat -> K) (i j : nat) s s' m : Prop :=
  hm_rc s' = hm_rc s /\ hm_cc s' = hm_cc s /\ hstr m s' /\ hdesc_ok s' /\
  (if i =? j then htriof lower s s' /\ hrep m s' (tripart lower aunit D)
   else if (if lower then j <? i else i <? j) then hsim s s' /\ hrep m s' D
   else (exists r ds, s' = HM (hm_rc s) (hm_cc s) (Some r) None None 0 0 ds /\ rk_k r = 0) /\ hrep m s' (fun _ _ => f0)).

Lemma tson_st lower aunit D i j s s' W m m' : tson lower aunit D i j s s' m -> keeps W m m' -> (forall a, In (fst a) (hblocks s') -> ~ W a) -> tson lower aunit D i j s s' m'.
Proof.
  intros (H1 & H2 & H3 & H4 & H5) Hk Hd. split; [exact H1|]. split; [exact H2|]. split; [eapply hstr_blk; eassumption|]. split; [exact H4|].
  destruct (i =? j); [|destruct (if lower then j <? i else i <? j)]; (split; [apply H5|eapply hrep_blk; [apply H5|exact Hk|exact Hd]]).
Qed.

Lemma wp_clone_tri (lower aunit : bool) h : forall D m (Q : hmx -> mem K -> Prop),
  hstr m h -> hrep m h D -> hsquare h -> hstd h ->
  (forall h' m', htriof lower h h' -> hm_rc h' = hm_rc h -> hm_cc h' = hm_cc h -> hown m' h' -> hdesc_ok h' -> hrep m' h' (tripart lower aunit D) ->
     (forall b, In b (hblocks h') -> next m <= b) -> keeps (fun a => next m <= fst a) m m' -> Q h' m') ->
  wp TT TT (clone_tri_hmatrix lower aunit h) m Q.
Proof.
  induction h as [h IH] using hm_rect'. intros D m Q Hst HD Hsq Hstd HQ.
  destruct Hsq as [rc f ds|rc l n ds hs Hsz Hdg]; cbn [clone_tri_hmatrix]; apply wp_bind, wp_assert; try apply cp_eqb_refl; cbn [bind].
  - inversion Hst as [|? ? ? ? E1 E2 E3 E4 E5 E6|]; subst. inversion HD as [|? ? ? ? ? ? ? Hf|]; subst.
    apply wp_bind. apply wp_new_full_h. intros g m1 S1 N1 B1 K1. cbn [hm_f]. apply wp_bind. inversion S1 as [|? ? ? ? T1 T2 T3 T4 T5 T6|]; subst.
    assert (Bg : next m <= mblk g < next m1) by (apply B1; cbn; auto).
    apply (wp_copy_tri_fresh lower aunit f g D); [exact T5| |exact T6| |congruence|congruence|congruence|].
    + eapply mval_keeps; [exact Hf|exact K1|]. intros a Ha Hb. apply inm_blk in Ha. lia.
    + intros a Ha Hb. apply inm_blk in Ha, Hb. lia.
    + intros m2 V2 K2. cbn [wp]. pose proof (proj1 K2) as N2. apply HQ.
      * constructor.
      * reflexivity.
      * reflexivity.
      * split; [|exact N1]. constructor; try assumption; [lia|]. intros i j Hi Hj. rewrite (V2 i j Hi Hj). discriminate.
      * intros s [<-|[]]. reflexivity.
      * constructor; assumption.
      * cbn. intros b [<-|[]]. lia.
      * eapply keeps_trans; (eapply keeps_mono; [|eassumption]); cbv beta; intros a Ha; [exact Ha|]. apply inm_blk in Ha. lia.
  - inversion HD as [| |? ? ? ? ? ? hs' ws' ? P1 P2 P3 P4 P5 P6 P7]; subst.
    assert (Eh : forall i, i < n -> hs' i = hs i).
    { intros i Hi. destruct (nth_ex l (i + 0 * n)) as [s Hs]; [rewrite P3; apply pos_lt; lia|]. destruct (P6 i 0 s Hi P1 Hs), (Hsz i 0 s Hi P1 Hs). congruence. }
    assert (Ew : forall j, j < n -> ws' j = hs j).
    { intros j Hj. destruct (nth_ex l (0 + j * n)) as [s Hs]; [rewrite P3; apply pos_lt; lia|]. destruct (P6 0 j s P1 Hj Hs), (Hsz 0 j s P1 Hj Hs). congruence. }
    assert (Hstr : forall s, In s l -> hstr m s) by (inversion Hst; subst; assumption).
    assert (Hrp : forall i j s, i < n -> j < n -> nth_error l (i + j * n) = Some s -> hrep m s (fun p q => D (nsum i hs + p) (nsum j hs + q))).
    { intros i j s Hi Hj Hs. rewrite <- (nsum_ext i hs' hs), <- (nsum_ext j ws' hs) by (intros; (apply Eh || apply Ew); lia). apply P7; assumption. }
    assert (Hn : nsum n hs = csz rc) by (rewrite <- P4; apply nsum_ext; intros; symmetry; apply Eh; assumption).
    rewrite Nat.eqb_refl. apply wp_bind, wp_assert; [reflexivity|]. cbn [bind]. apply wp_bind.
    set (q := fun i j => if i =? j then match nth_error l (i + j * n) with Some s => clone_tri_hmatrix lower aunit s | None => @Fail K hmx EBounds end
                         else if (if lower then j <? i else i <? j) then s <- sget (Some l) (i + j * n) ;; clone_hmatrix (K := K) s
                         else ri <- lift (cp_son rc i) ;; cj <- lift (cp_son rc j) ;; new_rk_hmatrix ri cj 0).
    set (blk := fun i j p q => D (nsum i hs + p) (nsum j hs + q)).
    assert (Hq : forall i j s m1 (Q1 : hmx -> mem K -> Prop), i < n -> j < n -> nth_error l (i + j * n) = Some s -> keeps (fun a => next m <= fst a) m m1 ->
       (forall s' m2, tson lower aunit (blk i j) i j s s' m2 -> NoDup (hblocks s') -> (forall b, In b (hblocks s') -> next m1 <= b < next m2) -> keeps (fun a => next m1 <= fst a) m1 m2 -> Q1 s' m2) ->
       wp TT TT (q i j) m1 Q1).
    { intros i j s m1 Q1 Hi Hj Hs Hk HQ1. pose proof (nth_error_In _ _ Hs) as Hin.
      assert (Hbs : forall a : addr, In (fst a) (hblocks s) -> ~ next m <= fst a) by (intros a Ha; apply (hstr_bound m) in Ha; [lia|apply Hstr, Hin]).
      assert (Hs1 : hstr m1 s) by (eapply hstr_blk; [apply Hstr, Hin|exact Hk|exact Hbs]).
      assert (Hr1 : hrep m1 s (blk i j)) by (eapply hrep_blk; [apply Hrp; eassumption|exact Hk|exact Hbs]).
      unfold q. destruct (Nat.eqb_spec i j) as [<-|Hne]; [|destruct (if lower then j <? i else i <? j) eqn:Es].
      - rewrite Hs. apply (IH l s eq_refl Hin (blk i i)); [exact Hs1|exact Hr1|eapply Hdg; eassumption| |].
        + intros t l0 Ht. apply Hstd. cbn [hnodes]. right. apply in_flat_map. exists s. auto.
        + intros h' m' T1 T2 T3 [T4 T4'] T5 T6 T7 T8. apply HQ1; [|exact T4'| |exact T8].
          * unfold tson. rewrite Nat.eqb_refl. auto 10.
          * intros b Hb. split; [apply T7, Hb|eapply hstr_bound; [exact T4|exact Hb]].
      - rewrite (sget_some _ _ _ Hs). cbn [bind]. apply (wp_clone_h m1 s (blk i j)); [exact Hs1|exact Hr1|].
        intros h' m' T1 [T4 T4'] T5 T6 T7 T8. destruct (hsim_sizes _ _ T1) as [C1 C2]. apply HQ1; [|exact T4'| |exact T8].
        + unfold tson. rewrite (proj2 (Nat.eqb_neq i j) Hne), Es. auto 10.
        + intros b Hb. split; [apply T7, Hb|eapply hstr_bound; [exact T4|exact Hb]].
      - destruct (Hstd _ l (or_introl eq_refl) eq_refl) as [_ Hcl]. cbn [hm_rc hm_cc hm_rsons hm_csons] in Hcl. destruct (Hcl i j s Hi Hj Hs) as [Y1 Y2].
        destruct Y1 as [(_ & Y1 & _)|(_ & _ & Y1)]; [lia|]. destruct Y2 as [(_ & Y2 & _)|(_ & _ & Y2)]; [lia|]. rewrite Y1, Y2. cbn [lift bind].
        apply wp_new_rk_h. intros r m' T1 T2 T3 T4 T5. apply HQ1; [|exact T3|exact T4|exact T5].
        unfold tson. rewrite (proj2 (Nat.eqb_neq i j) Hne), Es. split; [reflexivity|]. split; [reflexivity|]. split; [exact T1|]. split; [intros t [<-|[]]; reflexivity|].
        split; [exists r, 1; auto|]. inversion T1 as [? ? ? ? X1 X2 X3| |]; subst. constructor; [exact X1|exact X2|]. apply rk_zero; assumption. }
    apply (wp_trisons lower _ rc rc n l q (fun k lb m1 => length lb = k /\ keeps (fun a => next m <= fst a) m m1 /\ NoDup (flat_map hblocks lb) /\
       (forall b, In b (flat_map hblocks lb) -> next m <= b < next m1) /\
       (forall i j s s', i < n -> j < n -> i + j * n < k -> nth_error l (i + j * n) = Some s -> nth_error lb (i + j * n) = Some s' -> tson lower aunit (blk i j) i j s s' m1))).
    + intros j Hj. rewrite nth_error_map. destruct (nth_ex l (j + j * n)) as [s Hs]; [rewrite P3; apply pos_lt; assumption|]. unfold q. rewrite Hs, Nat.eqb_refl. reflexivity.
    + intros i j Hi Hj Hij. unfold q. destruct (Nat.eqb_spec i j) as [->|]; [destruct lower; lia|]. destruct lower; [destruct (Nat.ltb_spec j i)|destruct (Nat.ltb_spec i j)]; try lia; reflexivity.
    + intros i j Hi Hj Hij. unfold q. destruct (Nat.eqb_spec i j) as [->|]; [destruct lower; lia|]. destruct lower; [destruct (Nat.ltb_spec j i)|destruct (Nat.ltb_spec i j)]; try lia; reflexivity.
    + split; [reflexivity|]. split; [apply keeps_refl|]. split; [constructor|]. split; [intros b []|intros; lia].
    + intros i j lb m1 Hi Hj (L1 & K1 & N1 & B1 & T1). destruct (nth_ex l (i + j * n)) as [s Hs]; [rewrite P3; apply pos_lt; assumption|].
      eapply (Hq i j s); [exact Hi|exact Hj|exact Hs|exact K1|]. intros s' m2 T2 N2 B2 K2. pose proof (proj1 K1) as X1. pose proof (proj1 K2) as X2.
      split; [rewrite app_length; cbn; lia|]. split; [eapply keeps_trans; [exact K1|]; eapply keeps_mono; [|exact K2]; cbv beta; intros; lia|].
      rewrite flat_map_app. cbn [flat_map]. rewrite app_nil_r. split; [|split].
      * apply NoDup_app_intro; [exact N1|exact N2|]. intros b Hb Hb'. apply B1 in Hb. apply B2 in Hb'. lia.
      * intros b Hb. apply in_app_or in Hb. destruct Hb as [Hb|Hb]; [apply B1 in Hb|apply B2 in Hb]; lia.
      * intros i' j' t t' Hi' Hj' Hlt Ht Ht'. destruct (Nat.eq_dec (i' + j' * n) (i + j * n)) as [E|E].
        -- assert (Eij : i' = i /\ j' = j) by (apply (flat_inj i' j' i j n); assumption). destruct Eij as [-> ->]. rewrite nth_error_app2 in Ht' by lia. rewrite L1, Nat.sub_diag in Ht'. cbn in Ht'. injection Ht' as <-. rewrite Hs in Ht. injection Ht as <-. exact T2.
        -- rewrite nth_error_app1 in Ht' by lia. eapply tson_st; [eapply T1; [assumption|assumption|lia|exact Ht|exact Ht']|exact K2|].
           intros a Ha. cbv beta. assert (In (fst a) (flat_map hblocks lb)) as Hb by (apply in_flat_map; exists t'; split; [eapply nth_error_In; exact Ht'|exact Ha]). apply B1 in Hb. lia.
    + intros l' m' (L1 & K1 & N1 & B1 & T1).
      assert (HT : forall i j s', i < n -> j < n -> nth_error l' (i + j * n) = Some s' -> exists s, nth_error l (i + j * n) = Some s /\ tson lower aunit (blk i j) i j s s' m').
      { intros i j s' Hi Hj Hs'. destruct (nth_ex l (i + j * n)) as [s Hs]; [rewrite P3; apply pos_lt; assumption|]. exists s. split; [exact Hs|]. eapply T1; try eassumption. apply pos_lt; assumption. }
      assert (Hin : forall s', In s' l' -> exists i j s, i < n /\ j < n /\ nth_error l (i + j * n) = Some s /\ tson lower aunit (blk i j) i j s s' m').
      { intros s' Hs'. apply In_nth_error in Hs'. destruct Hs' as [k Hk]. pose proof (nth_lt _ _ _ Hk) as Hlt. destruct (flat_index k n n) as (i & j & Hi & Hj & ->); [lia|].
        destruct (HT i j s' Hi Hj Hk) as (s & Hs & Ht). exists i, j, s. auto. }
      cbn [update_hmatrix new_super_hmatrix]. apply wp_bind.
      apply (wp_sonloop (fun k d m1 => m1 = m' /\ d = 1 + length (flat_map hnodes (firstn k l')))).
      * split; reflexivity.
      * intros k d m1 Hk [-> ->]. destruct (nth_ex l' k) as [s' Hs']; [lia|]. rewrite (sget_some _ _ _ Hs'). cbn [bind wp]. split; [reflexivity|].
        destruct (Hin s' (nth_error_In _ _ Hs')) as (i & j & s & _ & _ & _ & (_ & _ & _ & Hd & _)).
        rewrite Nat.add_1_r, (firstn_S_nth l' k s' Hs'), flat_map_app, app_length. cbn [flat_map]. rewrite app_nil_r. rewrite (Hd s') by (destruct s'; left; reflexivity). lia.
      * intros d m1 [-> ->]. cbn [wp]. rewrite <- L1, firstn_all.
        assert (Hrc : forall i j s', i < n -> j < n -> nth_error l' (i + j * n) = Some s' -> hrows s' = hs i /\ hcols s' = hs j).
        { intros i j s' Hi Hj Hs'. destruct (HT i j s' Hi Hj Hs') as (s & Hs & (C1 & C2 & _)). unfold hrows, hcols. rewrite C1, C2. apply Hsz; assumption. }
        apply HQ.
        -- constructor; [exact P3|exact L1| | |].
           ++ intros j s s' Hj Hs Hs'. destruct (HT j j s' Hj Hj Hs') as (t & Ht & (_ & _ & _ & _ & T5)). rewrite Hs in Ht. injection Ht as <-. rewrite Nat.eqb_refl in T5. apply T5.
           ++ intros i j s s' Hi Hj Hij Hs Hs'. destruct (HT i j s' Hi Hj Hs') as (t & Ht & (_ & _ & _ & _ & T5)). rewrite Hs in Ht. injection Ht as <-.
              destruct (Nat.eqb_spec i j) as [->|]; [destruct lower; lia|]. destruct lower; [destruct (Nat.ltb_spec j i)|destruct (Nat.ltb_spec i j)]; try lia; apply T5.
           ++ intros i j s s' Hi Hj Hij Hs Hs'. destruct (HT i j s' Hi Hj Hs') as (t & Ht & (_ & _ & _ & _ & T5)). rewrite Hs in Ht. injection Ht as <-.
              destruct (Nat.eqb_spec i j) as [->|]; [destruct lower; lia|]. destruct lower; [destruct (Nat.ltb_spec j i)|destruct (Nat.ltb_spec i j)]; try lia; apply T5.
        -- reflexivity.
        -- reflexivity.
        -- split; [|exact N1]. apply (hstr_super _ _ _ _ _ _ _ hs hs); auto. intros s' Hs'. destruct (Hin s' Hs') as (i & j & s & _ & _ & _ & (_ & _ & X & _)). exact X.
        -- intros s Hs. cbn [hnodes] in Hs. destruct Hs as [<-|Hs]; [reflexivity|]. apply in_flat_map in Hs. destruct Hs as (s' & Hs' & Hs).
           destruct (Hin s' Hs') as (i & j & t & _ & _ & _ & (_ & _ & _ & Hd & _)). apply Hd, Hs.
        -- apply (hrep_super _ _ _ _ _ _ _ hs hs); auto. intros i j s' Hi Hj Hs'. destruct (Hrc i j s' Hi Hj Hs') as [R1 R2]. destruct (HT i j s' Hi Hj Hs') as (s & Hs & (_ & _ & _ & _ & T5)).
           destruct (Nat.eqb_spec i j) as [<-|Hne]; [eapply hrep_ext; [apply T5|]; intros p q' _ _; unfold tripart, blk|].
           { destruct (Nat.eqb_spec (nsum i hs + p) (nsum i hs + q')), (Nat.eqb_spec p q'); try lia; [reflexivity|].
             destruct lower; [destruct (Nat.ltb_spec (nsum i hs + q') (nsum i hs + p)), (Nat.ltb_spec q' p)|destruct (Nat.ltb_spec (nsum i hs + p) (nsum i hs + q')), (Nat.ltb_spec p q')]; try lia; reflexivity. }
           destruct (if lower then j <? i else i <? j) eqn:Es; (eapply hrep_ext; [apply T5|]); intros p q' Hp Hq'; rewrite R1 in Hp; rewrite R2 in Hq'; unfold tripart, blk.
           ++ destruct lower; apply Nat.ltb_lt in Es; pose proof (nsum_in hs _ _ Es); (destruct (Nat.eqb_spec (nsum i hs + p) (nsum j hs + q')); [lia|]).
              ** destruct (Nat.ltb_spec (nsum j hs + q') (nsum i hs + p)); [reflexivity|lia].
              ** destruct (Nat.ltb_spec (nsum i hs + p) (nsum j hs + q')); [reflexivity|lia].
           ++ destruct lower; apply Nat.ltb_ge in Es.
              ** assert (Es' : i < j) by lia. pose proof (nsum_in hs _ _ Es'). destruct (Nat.eqb_spec (nsum i hs + p) (nsum j hs + q')); [lia|]. destruct (Nat.ltb_spec (nsum j hs + q') (nsum i hs + p)); [lia|reflexivity].
              ** assert (Es' : j < i) by lia. pose proof (nsum_in hs _ _ Es'). destruct (Nat.eqb_spec (nsum i hs + p) (nsum j hs + q')); [lia|]. destruct (Nat.ltb_spec (nsum i hs + p) (nsum j hs + q')); [lia|reflexivity].
        -- intros b Hb. cbn [hblocks] in Hb. rewrite ?app_nil_l in Hb. apply B1 in Hb. lia.
        -- exact K1.
Qed.
End P.
