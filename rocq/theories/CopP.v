(** * Cluster operators: construction, deletion, products of bases *)
From Coq Require Import Arith Lia List Bool Permutation Ring.
From Verif Require Import Fld Ord Prog Arr View Loop Line Spec Cluster Block BlockP Avector Amatrix AvectorP AmatrixP AmatrixP2 RkP Hmatrix HmSpec HmP Clusterbasis CbSpec CbP CbP2 CbP9 CbP10
  Cbmgr CbmSpec CbmP CbmP2 CbmP3 Chol Qr Clusterop CopSpec OrthoP OrthoP3 OrthoP4.
Import ListNotations.

Section CoInd.
Context {G : ofops} (P : clusterop G -> Prop).
Hypothesis step : forall co, (forall s, In s (co_son co) -> P s) -> P co.
Fixpoint co_rect' (co : clusterop G) : P co.
Proof.
  apply step. destruct co as [t r c C l]; cbn [co_son]. induction l as [|a l IH]; intros s [].
  - rewrite <- H. apply co_rect'.
  - apply IH, H.
Defined.
End CoInd.

Section P.
Context {K : fops} {G : ofops} (L : ring_laws K).
Add Ring KringCo : (rl_ring K L).
Local Notation cbx := (cbasis G).
Local Notation cox := (clusterop G).
Implicit Types (m : mem K) (cb s : cbasis G) (D : nat -> Prop) (Ls X : list mat) (F f e : nat -> nat -> K) (l : list cbx) (co c : cox) (cl : list cox).

Lemma prfor_inv cb1 cb2 (pr : cox) : prfor cb1 cb2 pr ->
  cb_t cb1 = co_t pr /\ cb_t cb2 = co_t pr /\ mrows (co_C pr) = co_krow pr /\ mcols (co_C pr) = co_kcol pr /\
  (co_son pr = [] -> cb_son cb1 = [] \/ cb_son cb2 = []) /\
  (co_son pr <> [] -> length (cb_son cb1) = length (co_son pr) /\ length (cb_son cb2) = length (co_son pr)) /\
  (forall i s1 s2 p, nth_error (cb_son cb1) i = Some s1 -> nth_error (cb_son cb2) i = Some s2 -> nth_error (co_son pr) i = Some p -> prfor s1 s2 p).
Proof. intros H. inversion H; subst. auto 10. Qed.

Lemma wp_resize_co D m t r (c1 : nat) C cl Ls kr kc (Q : cox -> mem K -> Prop) : lm D m (C :: Ls) -> mrows C = r -> mcols C = c1 ->
  (forall C' m', mrows C' = kr -> mcols C' = kc -> lm D m' (C' :: Ls) -> (mblk C' = mblk C \/ next m <= mblk C') -> kb [mblk C] m m' -> Q (CO t kr kc C' cl) m') ->
  wp TT TT (resize_clusteroperator (CO t r c1 C cl) kr kc) m Q.
Proof.
  intros HL Er Ec HQ. unfold resize_clusteroperator. destruct (negb (kr =? r) || negb (kc =? c1)) eqn:E; cbv iota.
  - apply wp_bind. eapply wp_resize_lm; [exact HL|]. intros B m1 E1 E2 Hl1 Hb K1. cbn [wp]. apply HQ; [exact E1|exact E2|exact Hl1|exact Hb|]. eapply kb_of; [exact K1|]. cbn. intros a [Ha|Ha]; auto.
  - apply orb_false_iff in E as [E1%negb_false_iff%Nat.eqb_eq E2%negb_false_iff%Nat.eqb_eq]. subst r c1. rewrite <- E1, <- E2. cbn [wp]. apply HQ; auto. apply kb_refl.
Qed.
Lemma wp_clear_lm D m Ls C (Q : unit -> mem K -> Prop) : lm D m Ls -> In C Ls ->
  (forall m', mval m' C (fun _ _ => f0) -> lm D m' Ls -> kb [mblk C] m m' -> Q tt m') -> wp TT TT (clear_amatrix C) m Q.
Proof.
  intros HL HC HQ. destruct (lm_own _ _ _ C HL HC) as (_ & _ & W & A). apply wp_clear_amatrix; [exact W|exact A|apply TTw|]. intros m1 HV Kk.
  destruct (lm_writep D m m1 _ C C _ HL HC (fun a Ha => Ha) Kk HV) as [H1 H2]. apply HQ; assumption.
Qed.
Lemma wp_addmul_lm D m Ls alpha (ta : bool) A (tb : bool) B C f g h (Q : unit -> mem K -> Prop) :
  lm D m Ls -> In C Ls -> mblk A <> mblk C -> mblk B <> mblk C -> mval m A f -> mval m B g -> mval m C h ->
  (if ta then mcols A else mrows A) = mrows C -> (if tb then mrows B else mcols B) = mcols C -> (if ta then mrows A else mcols A) = (if tb then mcols B else mrows B) ->
  (forall m', mval m' C (fun i k => h i k + alpha * sum (if ta then mrows A else mcols A) (fun j => tr ta f i j * tr tb g j k))%F -> lm D m' Ls -> kb [mblk C] m m' -> Q tt m') ->
  wp TT TT (addmul_amatrix alpha ta A tb B C) m Q.
Proof.
  intros HL HC NA NB HA HB Hh E1 E2 E3 HQ. destruct (lm_own _ _ _ C HL HC) as (_ & _ & W & _).
  eapply (wp_addmul_amatrix L TT TT alpha ta A tb B C f g h); [exact W|exact HA|exact HB|exact Hh| | |apply TTr|apply TTr|apply TTw|lia|lia|exact E3|].
  { intros a Ha Hb. apply inm_blk in Ha, Hb. congruence. } { intros a Ha Hb. apply inm_blk in Ha, Hb. congruence. }
  intros m1 HV Kk. destruct (lm_writep D m m1 _ C C _ HL HC (fun a Ha => Ha) Kk HV) as [H1 H2]. apply HQ; [|exact H1|exact H2].
  intros i k Hi Hk. rewrite (HV i k Hi Hk), E1, E2. apply Nat.ltb_lt in Hi, Hk. rewrite Hi, Hk. reflexivity.
Qed.

(** ** Products of bases *)
Definition gram m cb1 cb2 (i j : nat) : K := sum (cb_size cb1) (fun p => fconj (cbmat m cb1 p i) * cbmat m cb2 p j)%F.

Definition pr_term m cb1 cb2 (n i j : nat) : K :=
  onth (fun s1 => onth (fun s2 => sum (cb_k s1) (fun r => fconj (mfun m (cb_E s1) r i) * sum (cb_k s2) (fun x => gram m s1 s2 r x * mfun m (cb_E s2) x j))%F) (cb_son cb2) n) (cb_son cb1) n.
Lemma gram_node m cb1 cb2 i j : cbok cb1 -> cb_son cb1 <> [] -> length (cb_son cb2) = length (cb_son cb1) ->
  (forall n s1 s2, nth_error (cb_son cb1) n = Some s1 -> nth_error (cb_son cb2) n = Some s2 -> cb_size s2 = cb_size s1) ->
  gram m cb1 cb2 i j = sum (length (cb_son cb1)) (fun n => pr_term m cb1 cb2 n i j).
Proof.
  intros H1 Hn Hlen Hsz. unfold gram at 1. rewrite (cbok_size cb1 H1 Hn), (sum_nsum L). apply sum_ext. intros n Hl.
  destruct (nth_ex (cb_son cb1) n Hl) as [s1 Hs1]. destruct (nth_ex (cb_son cb2) n) as [s2 Hs2]; [lia|].
  unfold pr_term. rewrite (onth_nth _ _ _ _ Hs1), (onth_nth _ _ _ _ Hs2), (at_nth cb_size _ _ _ Hs1).
  assert (Eo : nsum n (at_ cb_size (cb_son cb2)) = nsum n (at_ cb_size (cb_son cb1))).
  { apply nsum_ext. intros n1 Hn1. destruct (nth_ex (cb_son cb1) n1) as [t1 Ht1]; [lia|]. destruct (nth_ex (cb_son cb2) n1) as [t2 Ht2]; [lia|].
    rewrite (at_nth cb_size _ _ _ Ht1), (at_nth cb_size _ _ _ Ht2). eapply Hsz; eassumption. }
  transitivity (sum (cb_size s1) (fun p => sum (cb_k s1) (fun r => sum (cb_k s2) (fun x => fconj (mfun m (cb_E s1) r i) * (fconj (cbmat m s1 p r) * cbmat m s2 p x) * mfun m (cb_E s2) x j)))%F).
  - apply sum_ext. intros p Hp. rewrite (cbmat_node m cb1 n s1 p i Hs1 Hp). rewrite <- Eo. rewrite (cbmat_node m cb2 n s2 p j Hs2) by (rewrite (Hsz _ _ _ Hs1 Hs2); exact Hp).
    rewrite (sum_conj L), <- (sum_mul_r L). apply sum_ext. intros r _. rewrite <- (sum_mul_l L). apply sum_ext. intros x _. rewrite (rl_conj_mul K L). ring.
  - rewrite (sum_swap L). apply sum_ext. intros r _. rewrite (sum_swap L), <- (sum_mul_l L). apply sum_ext. intros x _. unfold gram. rewrite <- (sum_mul_r L), <- (sum_mul_l L). apply sum_ext. intros p _. ring.
Qed.

Lemma prod_same X m m1 m2 (pr : cox) : forall cb1 cb2, prod_of m m1 cb1 cb2 pr -> same X m1 m2 -> incl (comats pr) X -> prod_of m m2 cb1 cb2 pr.
Proof.
  induction pr as [pr IH] using co_rect'. intros cb1 cb2 HP HS HI. inversion HP as [? ? ? P1 P2 P3 P4]; subst. constructor; auto.
  - eapply same_mval; [exact P3|exact HS|]. apply HI. destruct pr. left. reflexivity.
  - intros i s1 s2 p H1 H2 H3. apply IH; [eapply nth_error_In; exact H3|eapply P4; eassumption|exact HS|]. intros A HA. apply HI.
    destruct pr. cbn in *. right. apply in_flat_map. exists p. split; [eapply nth_error_In; exact H3|exact HA].
Qed.
Lemma prod_src X m m1 m2 (pr : cox) : forall cb1 cb2, prod_of m1 m2 cb1 cb2 pr -> same X m m1 -> incl (cbmats0 cb1) X -> incl (cbmats0 cb2) X -> prod_of m m2 cb1 cb2 pr.
Proof.
  induction pr as [pr IH] using co_rect'. intros cb1 cb2 HP HS HI1 HI2. inversion HP as [? ? ? P1 P2 P3 P4]; subst. constructor; auto.
  - intros i j Hi Hj. rewrite (P3 i j Hi Hj). f_equal. apply sum_ext. intros p _. rewrite !(same_cbmat X m m1) by assumption. reflexivity.
  - intros i s1 s2 p H1 H2 H3. apply IH; [eapply nth_error_In; exact H3|eapply P4; eassumption|exact HS| |]; intros A HA; [apply HI1|apply HI2]; (eapply son_mats; [eapply nth_error_In; eassumption|apply mats0_in, HA]).
Qed.

Definition bp_ok (pr : cox) : Prop := forall cb1 cb2 D Ls m (Q : cox -> mem K -> Prop),
  cbok cb1 -> cbok cb2 -> cbinit m cb1 -> cbinit m cb2 -> prfor cb1 cb2 pr -> incl (cbmats0 cb1) Ls -> incl (cbmats0 cb2) Ls -> lm D m (comats pr ++ Ls) ->
  (forall pr' m', prod_of m m' cb1 cb2 pr' -> prfor cb1 cb2 pr' -> co_t pr' = co_t pr -> length (co_son pr') = length (co_son pr) -> lm D m' (comats pr' ++ Ls) ->
     newb (comats pr) (comats pr') m -> kb (map mblk (comats pr)) m m' -> Q pr' m') ->
  wp TT TT (basisproduct_clusteroperator cb1 cb2 pr) m Q.

Definition bp_sons cb1 cb2 : nat -> list cox -> prog K (list cox) :=
  fix go i (l : list cox) := match l with
    | [] => Ret []
    | p :: l' =>
        s1 <- sget (Some (cb_son cb1)) i ;; s2 <- sget (Some (cb_son cb2)) i ;;
        p1 <- basisproduct_clusteroperator s1 s2 p ;; r <- go (S i) l' ;; Ret (p1 :: r)
    end.
Definition bp_step cb1 cb2 (pr1 : cox) (l' : list cox) (i : nat) : prog K unit :=
  s1 <- sget (Some (cb_son cb1)) i ;; s2 <- sget (Some (cb_son cb2)) i ;; p <- sget (Some l') i ;;
  X <- init_amatrix (cb_k s1) (cb_k cb2) ;;
  clear_amatrix X ;;;
  addmul_amatrix f1 false (co_C p) false (cb_E s2) X ;;;
  addmul_amatrix f1 true (cb_E s1) false X (co_C pr1) ;;;
  uninit_amatrix X.
Lemma bp_eq_node cb1 cb2 t r (c1 : nat) C p0 (l : list cox) : basisproduct_clusteroperator cb1 cb2 (CO t r c1 C (p0 :: l)) =
  (passert (cp_eqb (cb_t cb1) t) ;;; passert (cp_eqb (cb_t cb2) t) ;;;
   pr1 <- resize_clusteroperator (CO t r c1 C (p0 :: l)) (cb_k cb1) (cb_k cb2) ;;
   passert (length (cb_son cb1) =? length (p0 :: l)) ;;; passert (length (cb_son cb2) =? length (p0 :: l)) ;;;
   l' <- bp_sons cb1 cb2 0 (p0 :: l) ;;
   clear_amatrix (co_C pr1) ;;; for_ 0 (length l') (bp_step cb1 cb2 pr1 l') ;;; Ret (co_setsons pr1 l')).
Proof. reflexivity. Qed.

Lemma wp_bpsons D m cb1 cb2 Ls cs : (forall p, In p cs -> bp_ok p) ->
  (forall i s1 s2 p, nth_error (cb_son cb1) i = Some s1 -> nth_error (cb_son cb2) i = Some s2 -> nth_error cs i = Some p ->
     cbok s1 /\ cbok s2 /\ cbinit m s1 /\ cbinit m s2 /\ incl (cbmats s1) Ls /\ incl (cbmats s2) Ls /\ prfor s1 s2 p) ->
  length (cb_son cb1) = length cs -> length (cb_son cb2) = length cs ->
  forall (l2 l1 bs : list cox) m1 (Q : list cox -> mem K -> Prop), cs = l1 ++ l2 -> length bs = length l1 ->
    (forall i s1 s2 p, i < length l1 -> nth_error (cb_son cb1) i = Some s1 -> nth_error (cb_son cb2) i = Some s2 -> nth_error bs i = Some p -> prod_of m m1 s1 s2 p /\ prfor s1 s2 p) ->
    same Ls m m1 ->
    lm D m1 (flat_map comats bs ++ flat_map comats l2 ++ Ls) ->
    newb (flat_map comats cs) (flat_map comats bs) m ->
    kb (map mblk (flat_map comats cs)) m m1 ->
    (forall bs2 m2, length (bs ++ bs2) = length cs ->
       (forall i s1 s2 p, nth_error (cb_son cb1) i = Some s1 -> nth_error (cb_son cb2) i = Some s2 -> nth_error (bs ++ bs2) i = Some p -> prod_of m m2 s1 s2 p /\ prfor s1 s2 p) ->
       same Ls m m2 -> lm D m2 (flat_map comats (bs ++ bs2) ++ Ls) ->
       newb (flat_map comats cs) (flat_map comats (bs ++ bs2)) m -> kb (map mblk (flat_map comats cs)) m m2 -> Q bs2 m2) ->
    wp TT TT (bp_sons cb1 cb2 (length l1) l2) m1 Q.
Proof.
  intros IH Hl Hlen1 Hlen2. induction l2 as [|p l2 IHl]; intros l1 bs m1 Q El Hbs HF HS HL HN HK HQ.
  - change (Q [] m1). rewrite app_nil_r in El. subst l1. apply HQ; rewrite ?app_nil_r; try assumption.
    intros i s1 s2 p H1. apply HF; [|exact H1]. apply nth_in in H1. lia.
  - assert (Hin : In p cs) by (rewrite El; apply in_or_app; right; left; reflexivity).
    assert (Hn : nth_error cs (length l1) = Some p) by (rewrite El, nth_error_app2, Nat.sub_diag by lia; reflexivity).
    pose proof (nth_in _ _ _ Hn) as [Hlt _].
    destruct (nth_ex (cb_son cb1) (length l1)) as [s1 Hs1]; [lia|]. destruct (nth_ex (cb_son cb2) (length l1)) as [s2 Hs2]; [lia|].
    cbn [bp_sons]. fold (bp_sons cb1 cb2). rewrite (sget_some _ _ _ Hs1), (sget_some _ _ _ Hs2). cbn [bind].
    destruct (Hl _ s1 s2 p Hs1 Hs2 Hn) as (S1 & S2 & S3 & S4 & S5 & S6 & S7). cbn [flat_map] in HL.
    set (rest := flat_map comats bs ++ flat_map comats l2 ++ Ls).
    assert (HL' : lm D m1 (comats p ++ rest)) by (eapply lm_perm; [|exact HL]; unfold rest; perm).
    assert (I1 : incl Ls rest) by (intros A HA; unfold rest; apply in_or_app; right; apply in_or_app; right; exact HA).
    apply wp_bind. eapply (IH p Hin s1 s2 D rest m1); [exact S1|exact S2|eapply same_init; [exact S3|exact HS|]|eapply same_init; [exact S4|exact HS|]|exact S7| | |exact HL'|].
    { intros A HA. apply S5, mats0_in, HA. } { intros A HA. apply S6, mats0_in, HA. } { intros A HA. apply I1, S5, mats0_in, HA. } { intros A HA. apply I1, S6, mats0_in, HA. }
    intros p' m2 HW Hf' _ _ HL2 HN2 K2. pose proof (kb_next _ _ _ HK) as N1.
    assert (HSr : same rest m1 m2). { eapply (same_lm D rest (comats p) []); [|exact K2|apply incl_refl]. eapply lm_perm; [|exact HL']. perm. }
    assert (HB : forall b, In b (map mblk (comats p)) -> In b (map mblk (flat_map comats cs))).
    { intros b Hb. apply in_map_iff in Hb as (A & <- & HA). apply in_map. apply in_flat_map. exists p. split; [exact Hin|exact HA]. }
    apply wp_bind. replace (S (length l1)) with (length (l1 ++ [p])) by (rewrite app_length; cbn; lia).
    eapply (IHl (l1 ++ [p]) (bs ++ [p'])).
    + rewrite El, <- app_assoc. reflexivity.
    + rewrite !app_length, Hbs. reflexivity.
    + intros i t1 t2 x Hi Ht1 Ht2 Hx. destruct (Nat.eq_dec i (length l1)) as [->|Hne].
      * rewrite nth_error_app2, Hbs, Nat.sub_diag in Hx by lia. injection Hx as <-. assert (t1 = s1) by congruence. assert (t2 = s2) by congruence. subst t1 t2. split; [|exact Hf'].
        eapply prod_src; [exact HW|exact HS| |]; intros A HA; [apply S5|apply S6]; apply mats0_in, HA.
      * rewrite app_length in Hi. cbn in Hi. rewrite nth_error_app1 in Hx by lia. destruct (HF i t1 t2 x ltac:(lia) Ht1 Ht2 Hx) as (P1 & P2). split; [|exact P2].
        eapply prod_same; [exact P1|exact HSr|]. intros A HA. unfold rest. apply in_or_app. left. apply in_flat_map. exists x. split; [eapply nth_error_In; exact Hx|exact HA].
    + eapply keeps_trans; [exact HS|eapply same_sub; [exact HSr|exact I1]].
    + eapply lm_perm; [|exact HL2]. unfold rest. rewrite flat_map_app. perm.
    + intros b Hb. rewrite flat_map_app, map_app in Hb. apply in_app_or in Hb as [Hb|Hb]; [apply HN, Hb|]. cbn [flat_map] in Hb. rewrite app_nil_r in Hb.
      apply HN2 in Hb as [Hb|Hb]; [left; apply HB, Hb|right; lia].
    + eapply kb_trans; [exact HK|exact K2|auto|]. intros b Hb. left. apply HB, Hb.
    + intros bs2 m3 X1 X2 X3 X4 X5 X6. rewrite <- app_assoc in X1, X2, X4, X5. apply HQ; assumption.
Qed.

Lemma fold_kb_sub bs bs' m m' : kb bs m m' -> incl bs bs' -> kb bs' m m'.
Proof. intros HK HI. eapply kb_mono; [exact HK|]. intros b Hb. left. apply HI, Hb. Qed.

(** The loop over the sons *)
Lemma wp_bploop D m cb1 cb2 t kr kc C (cl0 : list cox) cl Ls : let k1 := cb_k cb1 in let k2 := cb_k cb2 in
  mrows C = k1 -> mcols C = k2 -> length (cb_son cb1) = length cl -> length (cb_son cb2) = length cl ->
  (forall i s1 s2 p, nth_error (cb_son cb1) i = Some s1 -> nth_error (cb_son cb2) i = Some s2 -> nth_error cl i = Some p ->
     mval m (co_C p) (gram m s1 s2) /\ mrows (co_C p) = cb_k s1 /\ mcols (co_C p) = cb_k s2 /\ In (co_C p) Ls /\
     mval m (cb_E s1) (mfun m (cb_E s1)) /\ mrows (cb_E s1) = cb_k s1 /\ mcols (cb_E s1) = k1 /\ In (cb_E s1) Ls /\
     mval m (cb_E s2) (mfun m (cb_E s2)) /\ mrows (cb_E s2) = cb_k s2 /\ mcols (cb_E s2) = k2 /\ In (cb_E s2) Ls) ->
  mval m C (fun _ _ => f0) -> lm D m (C :: Ls) -> forall (Q : unit -> mem K -> Prop),
  (forall m', mval m' C (fun i j => sum (length cl) (fun n => pr_term m cb1 cb2 n i j)) -> lm D m' (C :: Ls) -> kb [mblk C] m m' -> Q tt m') ->
  wp TT TT (for_ 0 (length cl) (bp_step cb1 cb2 (CO t kr kc C cl0) cl)) m Q.
Proof.
  intros k1 k2 E1 E2 N1 N2 HS H0 HL Q HQ.
  apply (wp_for (fun n m1 => mval m1 C (fun i j => sum n (fun n => pr_term m cb1 cb2 n i j)) /\ lm D m1 (C :: Ls) /\ kb [mblk C] m m1)).
  - split; [exact H0|]. split; [exact HL|apply kb_refl].
  - intros n m1 Hn (HC & HL1 & K1). destruct (nth_ex cl n) as [p Hp]; [lia|]. destruct (nth_ex (cb_son cb1) n) as [s1 Hs1]; [lia|]. destruct (nth_ex (cb_son cb2) n) as [s2 Hs2]; [lia|].
    destruct (HS n s1 s2 p Hs1 Hs2 Hp) as (P1 & P2 & P3 & P4 & A1 & A2 & A3 & A4 & B1 & B2 & B3 & B4).
    unfold bp_step. rewrite (sget_some _ _ _ Hs1), (sget_some _ _ _ Hs2), (sget_some _ _ _ Hp). cbn [bind co_C].
    assert (KEEP : forall A f, In A Ls -> mval m A f -> mval m1 A f).
    { intros A f HA Hf. eapply mval_kb; [exact Hf|exact K1|eapply kb_blk; [exact HL|right; exact HA]|]. intros [E|[]]. apply (lm_neq _ _ _ _ A HL HA). symmetry. exact E. }
    pose proof (kb_next _ _ _ K1) as M1. assert (BC : mblk C < next m1) by (eapply kb_blk; [exact HL1|left; reflexivity]).
    apply wp_bind. eapply wp_init_kb; [exact HL1|]. intros X m2 EX HL2 K2. fold k2 in EX. pose proof (kb_next _ _ _ K2) as M2.
    assert (BX : mblk X = next m1) by (rewrite EX; reflexivity). assert (RX : mrows X = cb_k s1) by (rewrite EX; reflexivity). assert (CX : mcols X = k2) by (rewrite EX; reflexivity). clear EX.
    assert (NX : forall A, In A (C :: Ls) -> mblk A <> mblk X). { intros A HA. apply (lm_neq _ _ _ _ A HL2 HA). }
    apply wp_bind. eapply wp_clear_lm; [exact HL2|left; reflexivity|]. intros m3 HX3 HL3 K3.
    assert (K13 : forall A f, In A (C :: Ls) -> mval m1 A f -> mval m3 A f).
    { intros A f HA Hf. eapply mval_kb; [eapply mval_kb; [exact Hf|exact K2|eapply kb_blk; [exact HL1|exact HA]|intros []]|exact K3|eapply kb_blk; [exact HL2|right; exact HA]|]. intros [E|[]]. apply (NX A HA). symmetry. exact E. }
    apply wp_bind. eapply (wp_addmul_lm D m3 _ f1 false (co_C p) false (cb_E s2) X (gram m s1 s2) (mfun m (cb_E s2))).
    { exact HL3. } { left. reflexivity. } { apply NX. right. exact P4. } { apply NX. right. exact B4. } { apply K13; [right; exact P4|]. apply KEEP; assumption. } { apply K13; [right; exact B4|]. apply KEEP; assumption. }
    { exact HX3. } { lia. } { lia. } { lia. }
    intros m4 HX4 HL4 K4. cbn [tr] in HX4. rewrite P3 in HX4.
    assert (K14 : forall A f, In A (C :: Ls) -> mval m1 A f -> mval m4 A f).
    { intros A f HA Hf. eapply mval_kb; [apply (K13 A f HA Hf)|exact K4|eapply kb_blk; [exact HL3|right; exact HA]|]. intros [E|[]]. apply (NX A HA). symmetry. exact E. }
    apply wp_bind. eapply (wp_addmul_lm D m4 _ f1 true (cb_E s1) false X C (mfun m (cb_E s1))).
    { exact HL4. } { right. left. reflexivity. } { apply (lm_neq _ _ _ _ (cb_E s1) HL A4). } { intros E. apply (NX C (or_introl eq_refl)). symmetry. exact E. }
    { apply K14; [right; exact A4|]. apply KEEP; assumption. } { exact HX4. } { apply K14; [left; reflexivity|exact HC]. } { lia. } { lia. } { lia. }
    intros m5 HC5 HL5 K5. cbn [tr] in HC5. rewrite A2 in HC5.
    eapply wp_uninit_kb; [exact HL5|]. intros m6 HL6 K6. pose proof (kb_next _ _ _ K3). pose proof (kb_next _ _ _ K4). pose proof (kb_next _ _ _ K5).
    split; [|split; [exact HL6|]].
    + intros i j Hi Hj. rewrite (mval_kb _ _ _ _ _ HC5 K6 ltac:(lia)) by first [assumption | intros [E|[]]; apply (NX C (or_introl eq_refl)); symmetry; exact E].
      f_equal. cbn [sum]. f_equal. unfold pr_term. rewrite (onth_nth _ _ _ _ Hs1), (onth_nth _ _ _ _ Hs2). transitivity (f1 * sum (cb_k s1) (fun r => fconj (mfun m (cb_E s1) r i) * sum (cb_k s2) (fun x => gram m s1 s2 r x * mfun m (cb_E s2) x j)))%F.
      * f_equal. apply sum_ext. intros r _. f_equal. set (y := sum _ _). clearbody y. ring.
      * set (y := sum _ _). clearbody y. ring.
    + assert (Y2 : kb [mblk C] m m2) by (eapply kb_trans; [exact K1|exact K2|auto|intros b []]).
      assert (Y3 : kb [mblk C] m m3) by (eapply kb_trans; [exact Y2|exact K3|auto|intros b [<-|[]]; right; lia]).
      assert (Y4 : kb [mblk C] m m4) by (eapply kb_trans; [exact Y3|exact K4|auto|intros b [<-|[]]; right; lia]).
      assert (Y5 : kb [mblk C] m m5) by (eapply kb_trans; [exact Y4|exact K5|auto|intros b [<-|[]]; left; left; reflexivity]).
      eapply kb_trans; [exact Y5|exact K6|auto|intros b [<-|[]]; right; lia].
  - intros m1 (HC & HL1 & K1). apply HQ; assumption.
Qed.
End P.
