(** * Weights of cluster bases *)
From Coq Require Import Arith Lia List Bool Permutation Ring.
From Verif Require Import Fld Ord Prog Arr View Loop Line Spec Cluster Block Avector Amatrix AvectorP AmatrixP AmatrixP2 RkP Factor FactorSpec FactorP FactorP2 FactorP3 LrP
  Chol CholSpec CholP5 Qr QrSpec QrP QrP2 QrP3 QrP4 QrP7 QrP8 QrP10 Hmatrix HmSpec HmP Clusterbasis CbSpec CbP CbP2 Cbmgr CbmSpec CbmP CbmP2 CbmP3 Clusterop CopSpec OrthoP OrthoP2 OrthoP3 OrthoP4 OrthoP5 OrthoP6.
Import ListNotations.

(** Finite choice *)
Lemma choice_lt {B} (P : nat -> B -> Prop) (d : B) n : (forall i, i < n -> exists x, P i x) -> exists f, forall i, i < n -> P i (f i).
Proof.
  induction n as [|n IH]; intros HP; [exists (fun _ => d); intros i Hi; lia|]. destruct IH as (f & Hf); [intros i Hi; apply HP; lia|]. destruct (HP n ltac:(lia)) as (x & Hx).
  exists (fun i => if i =? n then x else f i). intros i Hi. destruct (Nat.eqb_spec i n) as [->|Hne]; [exact Hx|apply Hf; lia].
Qed.

Section P.
Context {K : fops} {G : ofops} (L : field_laws K) (O : qops K) (H : qlaws O).
Notation RL := (fl_ring K L).
Add Ring KringW : (rl_ring K (fl_ring K L)).
Local Notation cbx := (cbasis G).
Local Notation cox := (clusterop G).
Implicit Types (m : mem K) (cb s : cbasis G) (D : nat -> Prop) (Ls X : list mat) (F f e : nat -> nat -> K) (o : option cox) (l : list cbx) (co c : cox) (cl : list cox).
Notation up F := (tripart false false F).
Notation ex := (exact_zero O).

(** ** Products with block diagonal matrices *)
Definition blockdiag (n : nat) (sz kk : nat -> nat) (Qi : nat -> nat -> nat -> K) (qm : nat -> nat -> K) : nat -> nat -> K :=
  stack (map (fun i => (sz i, fun p q => sum (kk i) (fun r => Qi i p r * qm (nsum i kk + r)%nat q)%F)) (seq 0 n)).
Lemma stack_seq (sz : nat -> nat) (B : nat -> nat -> nat -> K) n : forall a i p q, i < n -> p < sz (a + i) ->
  stack (map (fun i => (sz i, B i)) (seq a n)) (nsum i (fun j => sz (a + j)) + p) q = B (a + i) p q.
Proof.
  induction n as [|n IH]; intros a i p q Hi Hp; [lia|]. cbn [seq map stack]. destruct i as [|i].
  - cbn [nsum plus]. rewrite Nat.add_0_r in *. apply Nat.ltb_lt in Hp. rewrite Hp. reflexivity.
  - rewrite nsum_head, Nat.add_0_r. destruct (Nat.ltb_spec (sz a + nsum i (fun j => sz (a + S j)) + p) (sz a)) as [Hlt|_]; [lia|].
    replace (sz a + nsum i (fun j => sz (a + S j)) + p - sz a) with (nsum i (fun j => sz (S a + j)) + p).
    + rewrite IH; [|lia|replace (S a + i) with (a + S i) by lia; exact Hp]. f_equal. lia.
    + rewrite (nsum_ext i (fun j => sz (S a + j)) (fun j => sz (a + S j))); [lia|]. intros j _. f_equal. lia.
Qed.
Lemma blockdiag_at n sz kk Qi qm i p q : i < n -> p < sz i -> blockdiag n sz kk Qi qm (nsum i sz + p) q = sum (kk i) (fun r => Qi i p r * qm (nsum i kk + r)%nat q)%F.
Proof. intros Hi Hp. unfold blockdiag. exact (stack_seq sz (fun i p q => sum (kk i) (fun r => Qi i p r * qm (nsum i kk + r)%nat q)%F) n 0 i p q Hi Hp). Qed.
Lemma blockdiag_orth n sz kk Qi qm k : (forall i, i < n -> orthonormal (sz i) (kk i) (Qi i)) -> orthonormal (nsum n kk) k qm -> orthonormal (nsum n sz) k (blockdiag n sz kk Qi qm).
Proof.
  intros HO HQ i j Hi Hj. rewrite (sum_nsum RL). rewrite <- (HQ i j Hi Hj), (sum_nsum RL). apply sum_ext. intros x Hx.
  etransitivity; [|eapply (orth_comp L (sz x) (kk x) (Qi x)); apply HO, Hx]. apply sum_ext. intros p Hp. rewrite !blockdiag_at by assumption. reflexivity.
Qed.

Lemma weight_prod m cb (kk : nat -> nat) (Qi Wi : nat -> nat -> nat -> K) f qm (R : nat -> nat -> K) k :
  let l := cb_son cb in let n := length l in
  cb_size cb = nsum n (at_ cb_size l) ->
  (forall i s, nth_error l i = Some s -> (forall p q, p < cb_size s -> q < cb_k s -> cbmat m s p q = sum (kk i) (fun r => Qi i p r * Wi i r q)%F) /\
     forall r q, r < kk i -> q < cb_k cb -> f (nsum i kk + r)%nat q = sum (cb_k s) (fun x => Wi i r x * mfun m (cb_E s) x q)%F) ->
  (forall r q, r < nsum n kk -> q < cb_k cb -> f r q = sum k (fun x => qm r x * R x q)%F) ->
  forall p q, p < cb_size cb -> q < cb_k cb -> cbmat m cb p q = sum k (fun r => blockdiag n (at_ cb_size l) kk Qi qm p r * R r q)%F.
Proof.
  intros l n Es HS Hf p q Hp Hq. rewrite Es in Hp. destruct (nsum_pos _ _ _ Hp) as (i & p' & Hi & Hp' & ->).
  destruct (nth_ex _ _ Hi) as [s Hs]. pose proof Hp' as Hp2. rewrite (at_nth _ _ _ _ Hs) in Hp2. destruct (HS i s Hs) as (HV & HF). unfold l. rewrite (cbmat_node _ _ _ _ _ _ Hs Hp2). fold l.
  transitivity (sum (kk i) (fun r => Qi i p' r * f (nsum i kk + r)%nat q)%F).
  - transitivity (sum (cb_k s) (fun x => sum (kk i) (fun r => Qi i p' r * (Wi i r x * mfun m (cb_E s) x q)))%F).
    + apply sum_ext. intros x Hx. rewrite HV by assumption. rewrite <- (sum_mul_r RL). apply sum_ext. intros r _. ring.
    + rewrite (sum_swap RL). apply sum_ext. intros r Hr. rewrite HF by assumption. rewrite (sum_mul_l RL). reflexivity.
  - transitivity (sum (kk i) (fun r => sum k (fun x => Qi i p' r * (qm (nsum i kk + r)%nat x * R x q)))%F).
    + apply sum_ext. intros r Hr. rewrite Hf; [rewrite (sum_mul_l RL); reflexivity| |exact Hq]. pose proof (nsum_in kk i n Hi). lia.
    + rewrite (sum_swap RL). apply sum_ext. intros x _. rewrite blockdiag_at by assumption. rewrite <- (sum_mul_r RL). apply sum_ext. intros r _. ring.
Qed.

(** ** One cluster *)
Lemma wp_weight_factor D m Vh t r (c1 : nat) C cl Ls f k0 (Q : cox -> mem K -> Prop) :
  let k := Nat.min (mrows Vh) k0 in
  lm D m (Vh :: C :: Ls) -> mval m Vh f -> mcols Vh = k0 -> mrows C = r -> mcols C = c1 ->
  (forall C' F tv m', qrfac O (mrows Vh) k0 f F tv -> mval m' C' (up F) -> mrows C' = k -> mcols C' = k0 -> lm D m' (C' :: Ls) ->
     (mblk C' = mblk C \/ next m <= mblk C') -> kb [mblk Vh; mblk C] m m' -> Q (CO t k k0 C' cl) m') ->
  wp TT TT (weight_factor O Vh k0 (CO t r c1 C cl)) m Q.
Proof.
  intros k HL Hf Ec Er Ec1 HQ. unfold weight_factor. fold k. cbv zeta.
  assert (BV : mblk Vh < next m) by (eapply kb_blk; [exact HL|left; reflexivity]).
  apply wp_bind. eapply wp_initv_lm; [exact HL|]. intros tau m1 Et HL1 K1. pose proof (kb_next _ _ _ K1) as N1.
  assert (Bt : vblk tau = next m) by (rewrite Et; reflexivity). assert (Dt : vdim tau = k) by (rewrite Et; reflexivity). clear Et.
  apply wp_bind. eapply (wp_qr_lm L O H); [exact HL1|eapply mval_kb; [exact Hf|exact K1|exact BV|intros []]|rewrite Dt, Ec; reflexivity|].
  intros F tv m2 HF HVh Htau HL2 K2. rewrite Ec in HF. pose proof (kb_next _ _ _ K2) as N2.
  apply wp_bind. eapply (wp_put_factor D m2 Vh t r c1 C cl (vm tau :: Ls) F k k0); [eapply lm_perm; [|exact HL2]; perm|exact HVh|exact Er|exact Ec1|unfold k; lia|exact Ec|].
  intros C' m3 C1 C2 C3 HL3 C4 K3. pose proof (kb_next _ _ _ K3) as N3.
  apply wp_bind. eapply (wp_uninitv_lm D m3 tau (Vh :: C' :: Ls)); [eapply lm_perm; [|exact HL3]; perm|]. intros m4 HL4 K4. pose proof (kb_next _ _ _ K4) as N4.
  apply wp_bind. eapply wp_uninit_kb; [exact HL4|]. intros m5 HL5 K5. cbn [wp].
  apply (HQ C' F tv m5); auto.
  - eapply (same_mval [C']); [exact C3| |left; reflexivity]. eapply keeps_trans.
    + eapply (same_lm D [C'] [vm tau] (Vh :: Ls)); [eapply lm_perm; [|exact HL3]; perm|exact K4|apply incl_refl].
    + eapply (same_lm D [C'] [Vh] Ls); [eapply lm_perm; [|exact HL4]; perm|exact K5|apply incl_refl].
  - destruct C4 as [C4|C4]; [left; exact C4|right; lia].
  - assert (Y2 : kb [mblk Vh; mblk C] m m2) by (eapply kb_trans; [exact K1|exact K2|intros b []|intros b [<-|[<-|[]]]; [right; lia|left; left; reflexivity]]).
    assert (Y3 : kb [mblk Vh; mblk C] m m3) by (eapply kb_trans; [exact Y2|exact K3|auto|intros b [<-|[]]; left; right; left; reflexivity]).
    assert (Y4 : kb [mblk Vh; mblk C] m m4) by (eapply kb_trans; [exact Y3|exact K4|auto|intros b [<-|[]]; right; lia]).
    eapply kb_trans; [exact Y4|exact K5|auto|intros b [<-|[]]; left; left; reflexivity].
Qed.

(** ** All clusters *)
Definition weight_ok cb : Prop := forall D co Ls m (Q : cox -> mem K -> Prop),
  cbok cb -> cbinit m cb -> cofor cb co -> incl (cbmats0 cb) Ls -> lm D m (comats co ++ Ls) ->
  (forall co' m', weight_of ex m m' cb co' -> cofor cb co' -> co_t co' = co_t co -> lm D m' (comats co' ++ Ls) -> newb (comats co) (comats co') m ->
     kb (map mblk (comats co)) m m' -> Q co' m') ->
  wp TT TT (weight_clusterbasis_clusteroperator O cb co) m Q.

Definition weight_sons co : nat -> list cbx -> prog K (list cox) :=
  fix go i l := match l with
    | [] => Ret []
    | s :: l' =>
        c <- sget (Some (co_son co)) i ;;
        c1 <- weight_clusterbasis_clusteroperator O s c ;;
        rs <- go (S i) l' ;;
        Ret (c1 :: rs)
    end.
Lemma weight_eq_node t k0 kt kb V E s0 l Z co : weight_clusterbasis_clusteroperator O (CB t k0 kt kb V E (s0 :: l) Z) co =
  (passert (length (s0 :: l) =? length (co_son co)) ;;; cl <- weight_sons co 0 (s0 :: l) ;; weight_node O (CB t k0 kt kb V E (s0 :: l) Z) co cl).
Proof. reflexivity. Qed.

Lemma comats_son co c : In c (co_son co) -> incl (comats c) (comats co).
Proof. destruct co. cbn. intros Hc A HA. right. apply in_flat_map. exists c. auto. Qed.
Lemma weight_same X m m1 m2 cb : forall co, weight_of ex m m1 cb co -> same X m1 m2 -> incl (comats co) X -> weight_of ex m m2 cb co.
Proof.
  induction cb as [cb IH] using cb_rect'. intros co HO HS HI. destruct HO as [cb co W Qm O1 O2 O3 O4 O5 O6 O7].
  apply (weight_of_intro ex m m2 cb co W Qm); auto.
  - eapply same_mval; [exact O3|exact HS|]. apply HI. destruct co. left. reflexivity.
  - intros i s c Hi Hc. eapply IH; [eapply nth_error_In; exact Hi|eapply O7; eassumption|exact HS|]. intros A HA. apply HI. eapply comats_son; [eapply nth_error_In; exact Hc|exact HA].
Qed.
Lemma weight_src X m m1 m2 cb : forall co, weight_of ex m1 m2 cb co -> same X m m1 -> incl (cbmats0 cb) X -> weight_of ex m m2 cb co.
Proof.
  induction cb as [cb IH] using cb_rect'. intros co HO HS HI. destruct HO as [cb co W Qm O1 O2 O3 O4 O5 O6 O7].
  apply (weight_of_intro ex m m2 cb co W Qm); auto.
  - intros HX p q Hp Hq. rewrite <- (O5 HX p q Hp Hq). symmetry. eapply same_cbmat; [exact HS|exact HI].
  - intros i s c Hi Hc. eapply IH; [eapply nth_error_In; exact Hi|eapply O7; eassumption|exact HS|]. intros A HA. apply HI. eapply son_mats; [eapply nth_error_In; exact Hi|apply mats0_in, HA].
Qed.

Lemma wp_wsons D m co Ls l : (forall s, In s l -> weight_ok s) -> (forall s, In s l -> cbok s /\ cbinit m s /\ incl (cbmats s) Ls) ->
  length (co_son co) = length l -> (forall i s c, nth_error l i = Some s -> nth_error (co_son co) i = Some c -> cofor s c) ->
  forall l2 l1 bs m1 (Q : list cox -> mem K -> Prop), l = l1 ++ l2 ->
    Forall2 (fun s c => weight_of ex m m1 s c /\ cofor s c) l1 bs -> same Ls m m1 ->
    lm D m1 (flat_map comats bs ++ flat_map comats (skipn (length l1) (co_son co)) ++ Ls) ->
    newb (flat_map comats (co_son co)) (flat_map comats bs) m ->
    kb (map mblk (flat_map comats (co_son co))) m m1 ->
    (forall bs2 m2, Forall2 (fun s c => weight_of ex m m2 s c /\ cofor s c) l (bs ++ bs2) -> same Ls m m2 -> lm D m2 (flat_map comats (bs ++ bs2) ++ Ls) ->
       newb (flat_map comats (co_son co)) (flat_map comats (bs ++ bs2)) m -> kb (map mblk (flat_map comats (co_son co))) m m2 -> Q bs2 m2) ->
    wp TT TT (weight_sons co (length l1) l2) m1 Q.
Proof.
  intros IH Hl Hlen Hfor. induction l2 as [|s l2 IHl]; intros l1 bs m1 Q El HF HS HL HN HK HQ.
  - change (Q [] m1). rewrite app_nil_r in El. subst l1. rewrite <- Hlen, skipn_all in HL. apply HQ; rewrite ?app_nil_r; assumption.
  - assert (Hs : In s l) by (rewrite El; apply in_or_app; right; left; reflexivity).
    assert (Hn : nth_error l (length l1) = Some s) by (rewrite El, nth_error_app2, Nat.sub_diag by lia; reflexivity).
    destruct (nth_ex (co_son co) (length l1)) as [c Hc]; [apply nth_in in Hn; lia|].
    cbn [weight_sons]. fold (weight_sons co). rewrite (sget_some _ _ _ Hc). cbn [bind]. destruct (Hl s Hs) as (S1 & S2 & S3). rewrite (skipn_nth _ _ _ Hc) in HL. cbn [flat_map] in HL.
    set (rest := flat_map comats bs ++ flat_map comats (skipn (S (length l1)) (co_son co)) ++ Ls).
    assert (HL' : lm D m1 (comats c ++ rest)) by (eapply lm_perm; [|exact HL]; unfold rest; perm).
    assert (I1 : incl Ls rest) by (intros A HA; unfold rest; apply in_or_app; right; apply in_or_app; right; exact HA).
    apply wp_bind. eapply (IH s Hs D c rest m1); [exact S1|eapply same_init; [exact S2|exact HS|]|eapply Hfor; eassumption| |exact HL'|].
    { intros A HA. apply S3, mats0_in, HA. } { intros A HA. apply I1, S3, mats0_in, HA. }
    intros c' m2 HW Hf' _ HL2 HN2 K2. pose proof (kb_next _ _ _ HK) as N1.
    assert (HSr : same rest m1 m2). { eapply (same_lm D rest (comats c) []); [|exact K2|apply incl_refl]. eapply lm_perm; [|exact HL']. perm. }
    assert (HB : forall b, In b (map mblk (comats c)) -> In b (map mblk (flat_map comats (co_son co)))).
    { intros b Hb. apply in_map_iff in Hb as (A & <- & HA). apply in_map. apply in_flat_map. exists c. split; [eapply nth_error_In; exact Hc|exact HA]. }
    apply wp_bind. replace (S (length l1)) with (length (l1 ++ [s])) by (rewrite app_length; cbn; lia).
    eapply (IHl (l1 ++ [s]) (bs ++ [c'])).
    + rewrite El, <- app_assoc. reflexivity.
    + apply Forall2_app.
      * apply Forall2_nth in HF as (F1 & F2). apply Forall2_nth. split; [exact F1|]. intros i a b Ha Hb. destruct (F2 i a b Ha Hb) as (W1 & W2). split; [|exact W2]. eapply weight_same; [exact W1|exact HSr|].
        intros A HA. unfold rest. apply in_or_app. left. apply in_flat_map. exists b. split; [eapply nth_error_In; exact Hb|exact HA].
      * constructor; [|constructor]. split; [|exact Hf']. eapply weight_src; [exact HW|exact HS|]. intros A HA. apply S3, mats0_in, HA.
    + eapply keeps_trans; [exact HS|eapply same_sub; [exact HSr|exact I1]].
    + rewrite app_length, Nat.add_1_r. eapply lm_perm; [|exact HL2]. unfold rest. rewrite flat_map_app. perm.
    + intros b Hb. rewrite flat_map_app, map_app in Hb. apply in_app_or in Hb as [Hb|Hb]; [apply HN, Hb|]. cbn [flat_map] in Hb. rewrite app_nil_r in Hb.
      apply HN2 in Hb as [Hb|Hb]; [left; apply HB, Hb|right; lia].
    + eapply kb_trans; [exact HK|exact K2|auto|]. intros b Hb. left. apply HB, Hb.
    + intros bs2 m3 X1 X2 X3 X4 X5. rewrite <- app_assoc in X1, X3, X4. apply HQ; assumption.
Qed.
End P.
