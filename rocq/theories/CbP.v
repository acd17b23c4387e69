(** * Facts about cluster bases: represented matrices, nodes, transformations *)
From Coq Require Import Arith Lia List Bool Ring.
From Verif Require Import Fld Ord Prog Arr View Spec Cluster Block Hmatrix HmSpec HmP Clusterbasis CbSpec.
Import ListNotations.

Lemma at_nth {A} (f : A -> nat) l i s : nth_error l i = Some s -> at_ f l i = f s.
Proof. intros H. unfold at_. apply nth_error_nth. rewrite nth_error_map, H. reflexivity. Qed.
Lemma at_cons {A} (f : A -> nat) a l i : at_ f (a :: l) (S i) = at_ f l i. Proof. reflexivity. Qed.
Lemma nsum_head n h : nsum (S n) h = h 0 + nsum n (fun i => h (S i)).
Proof. induction n as [|n IH]; [cbn; lia|]. change (nsum (S (S n)) h) with (nsum (S n) h + h (S n)). rewrite IH. cbn. lia. Qed.
Lemma at_le_max {A} (f : A -> nat) l s : In s l -> f s <= list_max (map f l).
Proof.
  intros H. pose proof (proj1 (list_max_le (map f l) _) (Nat.le_refl _)) as F. rewrite Forall_forall in F.
  apply F, in_map, H.
Qed.
Lemma nth_in {A} (l : list A) i s : nth_error l i = Some s -> i < length l /\ In s l.
Proof. intros H. split; [apply nth_error_Some; congruence|eapply nth_error_In; exact H]. Qed.
Lemma nsum_pos (h : nat -> nat) n : forall p, p < nsum n h -> exists i q, i < n /\ q < h i /\ p = nsum i h + q.
Proof.
  induction n as [|n IH]; cbn; intros p H; [lia|]. destruct (Nat.lt_ge_cases p (nsum n h)) as [H1|H1].
  - destruct (IH p H1) as (i & q & Hi & Hq & E). exists i, q. split; [lia|]. auto.
  - exists n, (p - nsum n h). split; [lia|]. split; [|lia]. lia.
Qed.
(** Positions in different parts are different. *)
Lemma nsum_sep (h : nat -> nat) i j p : i <> j -> p < h i -> nsum j h <= nsum i h + p < nsum j h + h j -> False.
Proof.
  intros Hn Hp H. destruct (Nat.lt_ge_cases i j) as [H1|H1].
  - pose proof (nsum_in h i j H1). lia.
  - pose proof (nsum_in h j i). lia.
Qed.

Lemma trip {A} (a a' b b' : nat) (c : A) : a = a' -> b = b' -> (a, b, c) = (a', b', c).
Proof. intros -> ->. reflexivity. Qed.

Section CbInd.
Context {G : ofops} (P : cbasis G -> Prop).
Hypothesis step : forall cb, (forall s, In s (cb_son cb) -> P s) -> P cb.
Fixpoint cb_rect' (cb : cbasis G) : P cb.
Proof.
  apply step. destruct cb as [t k kt kb V E l Z]; cbn [cb_son].
  induction l as [|a l IH]; intros s [].
  - rewrite <- H. apply cb_rect'.
  - apply IH, H.
Defined.
End CbInd.

Section CbP.
Context {K : fops} {G : ofops} (L : ring_laws K).
Add Ring KringCb : (rl_ring K L).
Implicit Types (m : mem K) (cb c s : cbasis G) (X Y : nat -> K) (M : cbasis G -> nat -> nat -> K).

(** ** Stored matrices *)
Lemma mfun_mval m A f : mval m A f -> forall i j, i < mrows A -> j < mcols A -> mfun m A i j = f i j.
Proof.
  intros H i j Hi Hj. unfold mfun. rewrite (H i j Hi Hj).
  apply Nat.ltb_lt in Hi, Hj. rewrite Hi, Hj. reflexivity.
Qed.
Lemma mval_mfun m A : (forall a, inm A a -> exists v, get m a = Val v) -> mval m A (mfun m A).
Proof.
  intros H i j Hi Hj. destruct (H (ma A i j)) as [v Hv]; [exists i, j; auto|]. unfold mfun. rewrite Hv.
  apply Nat.ltb_lt in Hi, Hj. rewrite Hi, Hj. reflexivity.
Qed.
Lemma mfun_keeps (W : addr -> Prop) m m' A : keeps W m m' -> disj (inm A) W -> forall i j, mfun m' A i j = mfun m A i j.
Proof.
  intros [_ Hk] Hd i j. unfold mfun. destruct (Nat.ltb_spec i (mrows A)); [|reflexivity].
  destruct (Nat.ltb_spec j (mcols A)); [|reflexivity]. cbn [andb].
  rewrite Hk; [reflexivity|]. intros Hw. apply (Hd (ma A i j)); [exists i, j; auto|exact Hw].
Qed.

Lemma cbinit_V m (t : cptr G) k kt kb V E Z : cbinit m (CB t k kt kb V E [] Z) -> mval m V (mfun m V).
Proof. intros H. apply mval_mfun. intros a Ha. apply H. constructor. exact Ha. Qed.
Lemma cbinit_E m cb s : cbinit m cb -> In s (cb_son cb) -> mval m (cb_E s) (mfun m (cb_E s)).
Proof. intros H Hs. apply mval_mfun. intros a Ha. apply H. eapply incb_E; eauto. Qed.
Lemma cbinit_son m cb s : cbinit m cb -> In s (cb_son cb) -> cbinit m s.
Proof. intros H Hs a Ha. apply H. eapply incb_son; eauto. Qed.
Lemma cbinit_keeps (W : addr -> Prop) m m' cb : cbinit m cb -> keeps W m m' -> disj (incb cb) W -> cbinit m' cb.
Proof. intros H [_ Hk] Hd a Ha. destruct (H a Ha) as [v Hv]. exists v. rewrite Hk; [exact Hv|]. intros Hw. apply (Hd a Ha Hw). Qed.

Lemma stack_ext (l : list (cbasis G)) (n : cbasis G -> nat) (F F' : cbasis G -> nat -> nat -> K) :
  (forall s, In s l -> forall p q, F s p q = F' s p q) ->
  forall p q, stack (map (fun s => (n s, F s)) l) p q = stack (map (fun s => (n s, F' s)) l) p q.
Proof.
  induction l as [|s l IH]; intros H p q; [reflexivity|]. cbn [map stack]. rewrite IH by (intros; apply H; right; assumption).
  rewrite (H s) by (left; reflexivity). reflexivity.
Qed.
Lemma stack_at (l : list (cbasis G)) (n : cbasis G -> nat) (F : cbasis G -> nat -> nat -> K) : forall i s p q,
  nth_error l i = Some s -> p < n s -> stack (map (fun s => (n s, F s)) l) (nsum i (at_ n l) + p) q = F s p q.
Proof.
  induction l as [|a l IH]; intros [|i] s p q Hs Hp; cbn [nth_error] in Hs; try discriminate.
  - injection Hs as ->. cbn [map stack nsum]. apply Nat.ltb_lt in Hp. cbn [plus]. rewrite Hp. reflexivity.
  - cbn [map stack]. rewrite nsum_head.
    assert (E : nsum i (fun i0 => at_ n (a :: l) (S i0)) = nsum i (at_ n l)) by (apply nsum_ext; reflexivity).
    rewrite E. change (at_ n (a :: l) 0) with (n a).
    destruct (Nat.ltb_spec (n a + nsum i (at_ n l) + p) (n a)); [lia|].
    replace (n a + nsum i (at_ n l) + p - n a) with (nsum i (at_ n l) + p) by lia. apply IH; assumption.
Qed.

Lemma cbmat_keeps (W : addr -> Prop) m m' cb : keeps W m m' -> disj (incb cb) W -> forall p q, cbmat m' cb p q = cbmat m cb p q.
Proof.
  intros Hk. induction cb as [cb IH] using cb_rect'. destruct cb as [t k kt kb V E [|s0 l] Z]; intros Hd p q; cbn [cbmat].
  - eapply mfun_keeps; [exact Hk|]. intros a Ha. apply Hd. constructor. exact Ha.
  - apply (stack_ext (s0 :: l) cb_size (fun s p q => sum (cb_k s) (fun r => cbmat m' s p r * mfun m' (cb_E s) r q)%F)
      (fun s p q => sum (cb_k s) (fun r => cbmat m s p r * mfun m (cb_E s) r q)%F)).
    intros s Hs p' q'. apply sum_ext. intros r _.
    rewrite IH; [|exact Hs|intros a Ha; apply Hd; eapply incb_son; eauto].
    rewrite (mfun_keeps W m m'); [reflexivity|exact Hk|]. intros a Ha. apply Hd. eapply incb_E; eauto.
Qed.

Lemma cbmat_leaf m cb : cb_son cb = [] -> cbmat m cb = mfun m (cb_V cb).
Proof. destruct cb as [t k kt kb V E l Z]; cbn [cb_son]. intros ->. reflexivity. Qed.
Lemma cbmat_node m cb i s p q : nth_error (cb_son cb) i = Some s -> p < cb_size s ->
  cbmat m cb (nsum i (at_ cb_size (cb_son cb)) + p) q = sum (cb_k s) (fun r => cbmat m s p r * mfun m (cb_E s) r q)%F.
Proof.
  destruct cb as [t k kt kb V E l Z]; cbn [cb_son]. intros Hs Hp. destruct l as [|s0 l]; [destruct i; discriminate|].
  cbn [cbmat]. apply (stack_at (s0 :: l) cb_size (fun s p q => sum (cb_k s) (fun r => cbmat m s p r * mfun m (cb_E s) r q)%F)); assumption.
Qed.

(** ** Nodes *)
Fixpoint gonodes (l : list (cbasis G)) (o r : nat) : list (nat * nat * cbasis G) :=
  match l with
  | [] => []
  | s :: l' => map (fun '(o', r', c) => (o + o', r + r', c)) (cbnodes s) ++ gonodes l' (o + cb_ktree s) (r + cb_size s)
  end.
Lemma cbnodes_eq cb : cbnodes cb = (0, 0, cb) :: gonodes (cb_son cb) (cb_k cb) 0.
Proof.
  destruct cb. reflexivity.
Qed.
Lemma in_gonodes l : forall o r n, In n (gonodes l o r) <->
  exists i s o' r' c, nth_error l i = Some s /\ In (o', r', c) (cbnodes s) /\ n = (o + nsum i (at_ cb_ktree l) + o', r + nsum i (at_ cb_size l) + r', c).
Proof.
  induction l as [|a l IH]; intros o r n; cbn [gonodes].
  - split; [intros []|]. intros (i & s & _ & _ & _ & H & _). destruct i; discriminate.
  - rewrite in_app_iff, in_map_iff, IH. split.
    + intros [([[o' r'] c] & <- & Hc)|(i & s & o' & r' & c & Hs & Hc & ->)].
      * exists 0, a, o', r', c. cbn [nth_error nsum]. rewrite !Nat.add_0_r. auto.
      * exists (S i), s, o', r', c. rewrite !nsum_head. split; [exact Hs|]. split; [exact Hc|].
        rewrite (nsum_ext i (fun i0 => at_ cb_ktree (a :: l) (S i0)) (at_ cb_ktree l)) by reflexivity.
        rewrite (nsum_ext i (fun i0 => at_ cb_size (a :: l) (S i0)) (at_ cb_size l)) by reflexivity.
        change (at_ cb_ktree (a :: l) 0) with (cb_ktree a). change (at_ cb_size (a :: l) 0) with (cb_size a).
        apply trip; lia.
    + intros ([|i] & s & o' & r' & c & Hs & Hc & ->); cbn [nth_error] in Hs.
      * injection Hs as ->. left. exists (o', r', c). cbn [nsum]. rewrite !Nat.add_0_r. auto.
      * right. exists i, s, o', r', c. rewrite !nsum_head. split; [exact Hs|]. split; [exact Hc|].
        rewrite (nsum_ext i (fun i0 => at_ cb_ktree (a :: l) (S i0)) (at_ cb_ktree l)) by reflexivity.
        rewrite (nsum_ext i (fun i0 => at_ cb_size (a :: l) (S i0)) (at_ cb_size l)) by reflexivity.
        change (at_ cb_ktree (a :: l) 0) with (cb_ktree a). change (at_ cb_size (a :: l) 0) with (cb_size a).
        apply trip; lia.
Qed.
Lemma in_nodes cb o r c : In (o, r, c) (cbnodes cb) <->
  (o = 0 /\ r = 0 /\ c = cb) \/
  exists i s o' r', nth_error (cb_son cb) i = Some s /\ In (o', r', c) (cbnodes s) /\
    o = cb_k cb + nsum i (at_ cb_ktree (cb_son cb)) + o' /\ r = nsum i (at_ cb_size (cb_son cb)) + r'.
Proof.
  rewrite cbnodes_eq. cbn [In]. rewrite in_gonodes. split.
  - intros [E|(i & s & o' & r' & c' & Hs & Hc & E)]; injection E as -> -> ->; [left; auto|].
    right. exists i, s, o', r'. cbn [plus]. auto.
  - intros [(-> & -> & ->)|(i & s & o' & r' & Hs & Hc & -> & ->)]; [left; reflexivity|].
    right. exists i, s, o', r', c. auto.
Qed.
Lemma nodes_self cb : In (0, 0, cb) (cbnodes cb). Proof. apply in_nodes. left. auto. Qed.
Lemma nodes_son cb i s o r c : nth_error (cb_son cb) i = Some s -> In (o, r, c) (cbnodes s) ->
  In (cb_k cb + nsum i (at_ cb_ktree (cb_son cb)) + o, nsum i (at_ cb_size (cb_son cb)) + r, c) (cbnodes cb).
Proof. intros Hs Hc. apply in_nodes. right. exists i, s, o, r. auto. Qed.

Lemma cbok_son cb s : cbok cb -> In s (cb_son cb) -> cbok s /\ mrows (cb_E s) = cb_k s /\ mcols (cb_E s) = cb_k cb.
Proof. intros H. destruct H as [|t k kt kb V E l Z H1 H2 H3 H4 H5 H6]; cbn [cb_son cb_k]; [intros []|]. apply H2. Qed.
Lemma cbok_size cb : cbok cb -> cb_son cb <> [] -> cb_size cb = nsum (length (cb_son cb)) (at_ cb_size (cb_son cb)).
Proof. intros H. destruct H as [|t k kt kb V E l Z H1 H2 H3 H4 H5 H6]; cbn [cb_son]; [congruence|]. intros _. exact H4. Qed.
Lemma cbok_ktree cb : cbok cb -> cb_ktree cb = cb_k cb + (if cb_leaf cb then cb_size cb else nsum (length (cb_son cb)) (at_ cb_ktree (cb_son cb))).
Proof.
  intros H. destruct H as [|t k kt kb V E l Z H1 H2 H3 H4 H5 H6]; cbn; [reflexivity|]. destruct l; [congruence|]. exact H5.
Qed.
Lemma cbok_tson cb i s : cbok cb -> nth_error (cb_son cb) i = Some s -> cp_son (cb_t cb) i = Ok (cb_t s).
Proof. intros H. destruct H as [|t k kt kb V E l Z H1 H2 H3 H4 H5 H6]; cbn; [destruct i; discriminate|]. apply H3. Qed.
Lemma cbok_kbranch cb s : cbok cb -> In s (cb_son cb) -> cb_k cb + cb_kbranch s <= cb_kbranch cb.
Proof.
  intros H. destruct H as [|t k kt kb V E l Z H1 H2 H3 H4 H5 H6]; cbn [cb_son cb_k cb_kbranch]; [intros []|].
  intros Hs. apply (at_le_max cb_kbranch) in Hs. lia.
Qed.
Lemma cbok_kbranch_k cb : cbok cb -> cb_k cb <= cb_kbranch cb.
Proof. intros H. destruct H; cbn; lia. Qed.

Lemma son_room cb i s : cbok cb -> nth_error (cb_son cb) i = Some s ->
  nsum i (at_ cb_size (cb_son cb)) + cb_size s <= cb_size cb /\
  cb_k cb + nsum i (at_ cb_ktree (cb_son cb)) + cb_ktree s <= cb_ktree cb.
Proof.
  intros H Hs. destruct (nth_in _ _ _ Hs) as [Hi Hin].
  assert (Hn : cb_son cb <> []) by (intros E; rewrite E in Hin; contradiction).
  rewrite (cbok_size cb H Hn), (cbok_ktree cb H). unfold cb_leaf. destruct (cb_son cb) eqn:E; [congruence|]. rewrite <- E in *.
  pose proof (nsum_in (at_ cb_size (cb_son cb)) i _ Hi). pose proof (nsum_in (at_ cb_ktree (cb_son cb)) i _ Hi).
  rewrite (at_nth cb_size _ _ _ Hs) in *. rewrite (at_nth cb_ktree _ _ _ Hs) in *. lia.
Qed.

Lemma nodes_ok cb : cbok cb -> forall o r c, In (o, r, c) (cbnodes cb) -> cbok c /\ r + cb_size c <= cb_size cb /\ o + cb_ktree c <= cb_ktree cb.
Proof.
  induction cb as [cb IH] using cb_rect'. intros H o r c Hc. apply in_nodes in Hc as [(-> & -> & ->)|(i & s & o' & r' & Hs & Hc & -> & ->)].
  - split; [exact H|lia].
  - destruct (nth_in _ _ _ Hs) as [_ Hin]. destruct (IH s Hin (proj1 (cbok_son cb s H Hin)) o' r' c Hc) as (A1 & A2 & A3).
    pose proof (son_room cb i s H Hs). split; [exact A1|]. lia.
Qed.
Lemma cbok_k_ktree cb : cbok cb -> cb_k cb <= cb_ktree cb.
Proof. intros H. rewrite (cbok_ktree cb H). lia. Qed.

Lemma placed_son cb i s : cbplaced cb -> nth_error (cb_son cb) i = Some s ->
  cb_off s = cb_off cb + nsum i (at_ cb_size (cb_son cb)) /\ cbplaced s.
Proof.
  intros H Hs. assert (E : cb_off s = cb_off cb + nsum i (at_ cb_size (cb_son cb))).
  { rewrite (H _ _ _ (nodes_son cb i s 0 0 s Hs (nodes_self s))). lia. }
  split; [exact E|]. intros o r c Hc. rewrite (H _ _ _ (nodes_son cb i s o r c Hs Hc)). lia.
Qed.

Lemma incb_node s : forall o r c a, In (o, r, c) (cbnodes s) -> incb c a -> incb s a.
Proof.
  induction s as [s IH] using cb_rect'. intros o r c a Hc Ha.
  apply in_nodes in Hc as [(_ & _ & ->)|(j & s' & o' & r' & Hs' & Hc & _)]; [exact Ha|].
  destruct (nth_in _ _ _ Hs') as [_ Hin]. apply (incb_son s s' a Hin). eapply IH; eauto.
Qed.

(** ** Sums over parts *)
Lemma sum_nsum n h (F : nat -> K) : sum (nsum n h) F = sum n (fun i => sum (h i) (fun p => F (nsum i h + p)%nat)).
Proof. induction n as [|n IH]; [reflexivity|]. cbn [nsum sum]. rewrite (sum_app L), IH. reflexivity. Qed.
Definition onth {A} (F : A -> K) (l : list A) (i : nat) : K := match nth_error l i with Some s => F s | None => f0 end.
Lemma onth_nth {A} (F : A -> K) (l : list A) i (s : A) : nth_error l i = Some s -> onth F l i = F s.
Proof. intros H. unfold onth. rewrite H. reflexivity. Qed.

(** ** Forward transformation *)
Definition fwdc M c X (q : nat) : K := sum (cb_size c) (fun p => fconj (M c p q) * X p)%F.
Definition shiftv (X : nat -> K) (o : nat) : nat -> K := fun p => X (o + p)%nat.

(** The coefficients contributed by the first [n] sons. *)
Definition fwd_part m cb X (n q : nat) : K :=
  sum n (fun i => onth (fun s => sum (cb_k s) (fun r => fconj (mfun m (cb_E s) r q) *
     fwdc (cbmat m) s (shiftv X (nsum i (at_ cb_size (cb_son cb)))) r)%F) (cb_son cb) i).

Lemma fwdc_node m cb X q : cbok cb -> cb_son cb <> [] -> fwdc (cbmat m) cb X q = fwd_part m cb X (length (cb_son cb)) q.
Proof.
  intros H Hn. unfold fwdc at 1. rewrite (cbok_size cb H Hn), sum_nsum. unfold fwd_part. apply sum_ext. intros i Hi.
  destruct (nth_ex (cb_son cb) i Hi) as [s Hs]. rewrite (onth_nth _ _ _ _ Hs), (at_nth _ _ _ _ Hs).
  unfold fwdc. rewrite (sum_ext _ _ (fun p => sum (cb_k s) (fun r => fconj (mfun m (cb_E s) r q) *
    (fconj (cbmat m s p r) * shiftv X (nsum i (at_ cb_size (cb_son cb))) p))%F)).
  - rewrite (sum_swap L). apply sum_ext. intros r _. rewrite (sum_mul_l L). reflexivity.
  - intros p Hp. rewrite (cbmat_node m cb i s p q Hs Hp). rewrite (sum_conj L).
    rewrite <- (sum_mul_r L). apply sum_ext. intros r _. rewrite (rl_conj_mul K L). unfold shiftv. ring.
Qed.

Lemma fwd_of_intro M cb X Y : cbok cb ->
  (forall q, q < cb_k cb -> Y q = fwdc M cb X q) ->
  (cb_leaf cb = true -> forall p, p < cb_size cb -> Y (cb_k cb + p)%nat = X p) ->
  (forall i s, nth_error (cb_son cb) i = Some s ->
     fwd_of M s (shiftv X (nsum i (at_ cb_size (cb_son cb)))) (shiftv Y (cb_k cb + nsum i (at_ cb_ktree (cb_son cb))))) ->
  fwd_of M cb X Y.
Proof.
  intros H H1 H2 H3 o r c Hc. apply in_nodes in Hc as [(-> & -> & ->)|(i & s & o' & r' & Hs & Hc & -> & ->)].
  - split; [exact H1|exact H2].
  - destruct (H3 i s Hs o' r' c Hc) as [A1 A2]. unfold shiftv in *. split.
    + intros q Hq. replace (cb_k cb + nsum i (at_ cb_ktree (cb_son cb)) + o' + q) with (cb_k cb + nsum i (at_ cb_ktree (cb_son cb)) + (o' + q)) by lia.
      rewrite A1 by exact Hq. apply sum_ext. intros p _. rewrite Nat.add_assoc. reflexivity.
    + intros Hl p Hp. replace (cb_k cb + nsum i (at_ cb_ktree (cb_son cb)) + o' + cb_k c + p) with (cb_k cb + nsum i (at_ cb_ktree (cb_son cb)) + (o' + cb_k c + p)) by lia.
      rewrite A2 by assumption. rewrite Nat.add_assoc. reflexivity.
Qed.
Lemma fwd_of_self M cb X Y : fwd_of M cb X Y -> forall q, q < cb_k cb -> Y q = fwdc M cb X q.
Proof. intros H q Hq. apply (H 0 0 cb (nodes_self cb)), Hq. Qed.

Lemma fwd_of_ext M M' cb X X' Y Y' : cbok cb -> fwd_of M cb X Y ->
  (forall o r c, In (o, r, c) (cbnodes cb) -> forall p q, p < cb_size c -> q < cb_k c -> M c p q = M' c p q) ->
  (forall p, p < cb_size cb -> X p = X' p) -> (forall q, q < cb_ktree cb -> Y q = Y' q) -> fwd_of M' cb X' Y'.
Proof.
  intros Hok H EM EX EY o r c Hc. destruct (H o r c Hc) as [A1 A2]. destruct (nodes_ok cb Hok o r c Hc) as (B1 & B2 & B3).
  pose proof (cbok_ktree c B1) as Ek. split.
  - intros q Hq. rewrite <- EY by lia. rewrite A1 by exact Hq. apply sum_ext. intros p Hp. rewrite (EM o r c Hc p q Hp Hq), EX by lia. reflexivity.
  - intros Hl p Hp. rewrite Hl in Ek. rewrite <- EY, <- EX by lia. apply A2; assumption.
Qed.

(** ** Backward transformation *)
Lemma lsum_app' (l1 l2 : list K) : lsum (l1 ++ l2) = (lsum l1 + lsum l2)%F.
Proof. unfold lsum. induction l1 as [|a l IH]; cbn [app fold_right]; [ring|]. rewrite IH. ring. Qed.
Lemma lsum_0 (l : list K) : (forall a, In a l -> a = f0) -> lsum l = f0.
Proof.
  induction l as [|a l IH]; intros H; [reflexivity|]. cbn [lsum fold_right]. rewrite (H a) by (left; reflexivity).
  change (fold_right fadd f0 l) with (lsum l). rewrite IH by (intros; apply H; right; assumption). ring.
Qed.

Lemma lsum_gonodes (F : nat * nat * cbasis G -> K) l : forall o r, lsum (map F (gonodes l o r)) =
  sum (length l) (fun i => onth (fun s => lsum (map (fun '(o', r', c) => F (o + nsum i (at_ cb_ktree l) + o', r + nsum i (at_ cb_size l) + r', c)) (cbnodes s))) l i).
Proof.
  induction l as [|a l IH]; intros o r; [reflexivity|]. cbn [gonodes length]. rewrite map_app, lsum_app', (sum_head L), IH. f_equal.
  - unfold onth; cbn [nth_error nsum]. rewrite map_map. f_equal. apply map_ext. intros [[o' r'] c]. rewrite !Nat.add_0_r. reflexivity.
  - apply sum_ext. intros i Hi. unfold onth. cbn [nth_error]. destruct (nth_error l i); [|reflexivity].
    f_equal. apply map_ext. intros [[o' r'] c']. rewrite !nsum_head.
    rewrite (nsum_ext i (fun i0 => at_ cb_ktree (a :: l) (S i0)) (at_ cb_ktree l)) by reflexivity.
    rewrite (nsum_ext i (fun i0 => at_ cb_size (a :: l) (S i0)) (at_ cb_size l)) by reflexivity.
    change (at_ cb_ktree (a :: l) 0) with (cb_ktree a). change (at_ cb_size (a :: l) 0) with (cb_size a).
    apply (f_equal F), trip; lia.
Qed.

Lemma bwd_leaf M cb Y p : cb_son cb = [] -> p < cb_size cb ->
  bwd_of M cb Y p = (sum (cb_k cb) (fun q => M cb p q * Y q) + Y (cb_k cb + p)%nat)%F.
Proof.
  intros E Hp. unfold bwd_of. rewrite cbnodes_eq, E. cbn [gonodes map lsum fold_right bwd_term]. unfold cb_leaf. rewrite E.
  change (0 <=? p) with true. cbn [andb Nat.add]. apply Nat.ltb_lt in Hp. rewrite Hp, Nat.sub_0_r. ring.

Qed.
Lemma bwd_node M cb Y i s p : cbok cb -> nth_error (cb_son cb) i = Some s -> p < cb_size s ->
  bwd_of M cb Y (nsum i (at_ cb_size (cb_son cb)) + p)
  = (sum (cb_k cb) (fun q => M cb (nsum i (at_ cb_size (cb_son cb)) + p)%nat q * Y q) +
     bwd_of M s (shiftv Y (cb_k cb + nsum i (at_ cb_ktree (cb_son cb)))) p)%F.
Proof.
  intros Hok Hs Hp. destruct (nth_in _ _ _ Hs) as [Hi Hin]. pose proof (proj1 (son_room cb i s Hok Hs)) as Hr.
  unfold bwd_of. rewrite cbnodes_eq. cbn [map lsum fold_right]. f_equal.
  - unfold bwd_term. assert (El : cb_leaf cb = false). { unfold cb_leaf. destruct (cb_son cb); [contradiction|reflexivity]. }
    rewrite El. change (0 <=? _) with true. cbn [andb Nat.add]. rewrite Nat.sub_0_r.
    destruct (Nat.ltb_spec (nsum i (at_ cb_size (cb_son cb)) + p) (cb_size cb)); [|lia]. ring.
  - change (fold_right fadd f0) with (@lsum K). rewrite lsum_gonodes. etransitivity; [apply (sum_single L _ i); [exact Hi|]|].
    { intros j Hj Hne. destruct (nth_ex (cb_son cb) j Hj) as [s' Hs']. rewrite (onth_nth _ _ _ _ Hs').
      apply lsum_0. intros a Ha. apply in_map_iff in Ha as ([[o' r'] c] & <- & Hc).
      destruct (nodes_ok s' (proj1 (cbok_son cb s' Hok (proj2 (nth_in _ _ _ Hs')))) o' r' c Hc) as (_ & B & _).
      unfold bwd_term. destruct (Nat.leb_spec (0 + nsum j (at_ cb_size (cb_son cb)) + r') (nsum i (at_ cb_size (cb_son cb)) + p)); [|reflexivity].
      destruct (Nat.ltb_spec (nsum i (at_ cb_size (cb_son cb)) + p) (0 + nsum j (at_ cb_size (cb_son cb)) + r' + cb_size c)); [|reflexivity].
      exfalso. apply (nsum_sep (at_ cb_size (cb_son cb)) i j p); [congruence|rewrite (at_nth _ _ _ _ Hs); exact Hp|rewrite (at_nth _ _ _ _ Hs'); lia]. }
    rewrite (onth_nth _ _ _ _ Hs). f_equal. apply map_ext_in. intros [[o' r'] c] Hc. unfold bwd_term, shiftv. cbn [plus].
    replace (nsum i (at_ cb_size (cb_son cb)) + r' <=? nsum i (at_ cb_size (cb_son cb)) + p) with (r' <=? p)
      by (apply eq_true_iff_eq; rewrite !Nat.leb_le; lia).
    replace (nsum i (at_ cb_size (cb_son cb)) + p <? nsum i (at_ cb_size (cb_son cb)) + r' + cb_size c) with (p <? r' + cb_size c)
      by (apply eq_true_iff_eq; rewrite !Nat.ltb_lt; lia).
    destruct (Nat.leb_spec r' p); [|reflexivity]. destruct (p <? r' + cb_size c); [|reflexivity]. cbn [andb].
    replace (nsum i (at_ cb_size (cb_son cb)) + p - (nsum i (at_ cb_size (cb_son cb)) + r')) with (p - r') by lia. f_equal.
    + apply sum_ext. intros q _. rewrite !Nat.add_assoc. reflexivity.
    + destruct (cb_leaf c); [|reflexivity]. rewrite !Nat.add_assoc. reflexivity.
Qed.

Lemma bwd_ext M M' cb Y Y' p : cbok cb -> p < cb_size cb ->
  (forall o r c, In (o, r, c) (cbnodes cb) -> forall p q, p < cb_size c -> q < cb_k c -> M c p q = M' c p q) ->
  (forall q, q < cb_ktree cb -> Y q = Y' q) -> bwd_of M cb Y p = bwd_of M' cb Y' p.
Proof.
  intros Hok Hp EM EY. unfold bwd_of. f_equal. apply map_ext_in. intros [[o r] c] Hc.
  destruct (nodes_ok cb Hok o r c Hc) as (B1 & B2 & B3). pose proof (cbok_ktree c B1) as Ek. unfold bwd_term.
  destruct (Nat.leb_spec r p); [|reflexivity]. destruct (Nat.ltb_spec p (r + cb_size c)); [|reflexivity]. cbn [andb]. f_equal.
  - apply sum_ext. intros q Hq. rewrite (EM o r c Hc) by lia. rewrite EY by lia. reflexivity.
  - destruct (cb_leaf c) eqn:El; [|reflexivity]. apply EY. lia.
Qed.

(** Adding to the coefficients of the root. *)
Lemma bwd_add M cb Y Z p : cbok cb -> p < cb_size cb ->
  bwd_of M cb (fun o => if o <? cb_k cb then (Y o + Z o)%F else Y o) p
  = (bwd_of M cb Y p + sum (cb_k cb) (fun q => M cb p q * Z q))%F.
Proof.
  intros Hok Hp. destruct (cb_son cb) as [|s0 l0] eqn:E.
  - rewrite !bwd_leaf by assumption. destruct (Nat.ltb_spec (cb_k cb + p) (cb_k cb)); [lia|].
    rewrite (sum_ext _ _ (fun q => M cb p q * Y q + M cb p q * Z q)%F).
    + rewrite (sum_add L). ring.
    + intros q Hq. apply Nat.ltb_lt in Hq. rewrite Hq. ring.
  - rewrite (cbok_size cb Hok) in Hp by congruence. apply nsum_pos in Hp as (i & p' & Hi & Hp' & ->).
    destruct (nth_ex (cb_son cb) i Hi) as [s Hs]. rewrite (at_nth _ _ _ _ Hs) in Hp'. rewrite !(bwd_node M cb _ i s p' Hok Hs Hp').
    assert (E1 : bwd_of M s (shiftv (fun o => if o <? cb_k cb then (Y o + Z o)%F else Y o) (cb_k cb + nsum i (at_ cb_ktree (cb_son cb)))) p'
      = bwd_of M s (shiftv Y (cb_k cb + nsum i (at_ cb_ktree (cb_son cb)))) p').
    { apply bwd_ext; [apply (cbok_son cb s Hok (proj2 (nth_in _ _ _ Hs)))|exact Hp'|reflexivity|].
      intros q Hq. unfold shiftv. destruct (Nat.ltb_spec (cb_k cb + nsum i (at_ cb_ktree (cb_son cb)) + q) (cb_k cb)); [lia|reflexivity]. }
    rewrite E1. rewrite (sum_ext _ _ (fun q => M cb (nsum i (at_ cb_size (cb_son cb)) + p')%nat q * Y q + M cb (nsum i (at_ cb_size (cb_son cb)) + p')%nat q * Z q)%F).
    + rewrite (sum_add L). ring.
    + intros q Hq. apply Nat.ltb_lt in Hq. rewrite Hq. ring.
Qed.

(** Transfer of coefficients to a son. *)
Lemma bwd_transfer m cb Y i s p : cbok cb -> nth_error (cb_son cb) i = Some s -> p < cb_size s ->
  bwd_of (cbmat m) cb Y (nsum i (at_ cb_size (cb_son cb)) + p)
  = bwd_of (cbmat m) s (fun o => if o <? cb_k s then
        (Y (cb_k cb + nsum i (at_ cb_ktree (cb_son cb)) + o)%nat + sum (cb_k cb) (fun q => mfun m (cb_E s) o q * Y q))%F
      else Y (cb_k cb + nsum i (at_ cb_ktree (cb_son cb)) + o)%nat) p.
Proof.
  intros Hok Hs Hp. rewrite (bwd_node _ cb Y i s p Hok Hs Hp).
  pose proof (bwd_add (cbmat m) s (shiftv Y (cb_k cb + nsum i (at_ cb_ktree (cb_son cb)))) (fun o => sum (cb_k cb) (fun q => mfun m (cb_E s) o q * Y q)%F) p
    (proj1 (cbok_son cb s Hok (proj2 (nth_in _ _ _ Hs)))) Hp) as HB.
  etransitivity; [|symmetry; exact HB]. clear HB. rewrite (Radd_comm (rl_ring K L)). f_equal.
  rewrite (sum_ext (cb_k s) _ (fun r => sum (cb_k cb) (fun q => cbmat m s p r * mfun m (cb_E s) r q * Y q)%F)).
  - rewrite (sum_swap L). apply sum_ext. intros q _. rewrite (cbmat_node m cb i s p q Hs Hp). rewrite <- (sum_mul_r L). reflexivity.
  - intros r _. rewrite <- (sum_mul_l L). apply sum_ext. intros q _. ring.
Qed.
End CbP.
