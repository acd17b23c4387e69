(** * Proofs about diagonal matrices, products and copies of triangular matrices *)
From Coq Require Import Arith Lia List Bool Ring.
From Verif Require Import Fld Prog View Spec Loop Line Factor FactorSpec FactorP FactorP2.

Section Scale.
Context {K : fops}.
Implicit Types (m : mem K) (R W : addr -> Prop) (A : mat) (x : vec) (P : mem K -> Prop).

Lemma wp_scale R W P (xt : bool) X n (ld : nat -> prog K K) (D : nat -> K) (h : K -> K) g m
  (Q : unit -> mem K -> Prop) :
  mwf X -> mval m X g -> P m -> (forall m1 m2, P m1 -> keeps (inm X) m1 m2 -> P m2) ->
  wrok W (inm X) -> n <= lnn xt X ->
  (forall i m1, i < n -> P m1 -> wp R W (ld i) m1 (fun d m2 => d = D i /\ m2 = m1)) ->
  (forall m', mval m' X (fun i j => let k := if xt then j else i in
        if k <? n then (g i j * h (D k))%F else g i j) -> keeps (inm X) m m' -> Q tt m') ->
  wp R W (for_ 0 n (fun i => d <- ld i ;;
    for_ 0 (nln xt X) (fun j =>
      v <- pload (lc (negb xt) X i j) ;; pstore (lc (negb xt) X i j) (v * h d)%F))) m Q.
Proof.
  intros Hwf Hg HP HPk Hw Hn Hld HQ.
  apply (wp_for (fun k m1 => mval m1 X (fun i j => let l := if xt then j else i in
        if l <? k then (g i j * h (D l))%F else g i j) /\ keeps (inm X) m m1)).
  - split; [|apply keeps_refl]. eapply mval_ext; [exact Hg|]. intros i j _ _; cbv beta zeta.
    destruct xt; bsplit; reflexivity.
  - intros k m1 Hk [Hv Hk1]. apply wp_bind.
    eapply wp_conseq; [apply Hld; [lia|exact (HPk m m1 HP Hk1)]|].
    cbv beta. intros d m2 [-> ->].
    assert (Hk' : k < nln (negb xt) X) by (unfold nln, lnn in *; destruct xt; cbn in *; lia).
    assert (EN : nln xt X = lnn (negb xt) X) by (destruct xt; reflexivity).
    rewrite EN.
    apply (wp_lup R W (lc (negb xt) X k) (lnn (negb xt) X) 0 _ (ln (negb xt) g k)
             (fun j => ln (negb xt) g k j * h (D k))%F);
      [apply linj_lc; assumption| |right; lia| |].
    + intros j Hj. unfold lc, lnn, nln, ln in *. destruct xt; cbn [negb] in *.
      * rewrite (Hv j k) by lia. cbv zeta. bsplit; reflexivity.
      * rewrite (Hv k j) by lia. cbv zeta. bsplit; reflexivity.
    + intros j m2 Hj Hl2 Hk2. apply wp_bind.
      eapply (wp_pload R W); [apply Hl2; lia|right; apply Hw; apply lc_in; [exact Hk'|lia]|].
      assert (Eb : ((0 <=? j) && (j <? j)) = false) by (apply andb_false_intro2, Nat.ltb_irrefl).
      apply wp_pstore.
      * rewrite (Hl2 j) by lia. discriminate.
      * apply Hw. apply lc_in; [exact Hk'|lia].
      * apply wrote_upd; [rewrite (Hl2 j) by lia; discriminate|]. rewrite Eb. reflexivity.
    + intros m2 Hl2 Hk2. split.
      * destruct xt; unfold lc, lnn, nln, ln in *; cbn [negb] in *.
        -- eapply mval_ext; [eapply (mval_col m1 m2 X k); [exact Hwf|lia|exact Hv|exact Hl2|exact Hk2]|].
           intros i j Hi Hj; cbv beta zeta. bsplit; subst; reflexivity.
        -- eapply mval_ext; [eapply (mval_row m1 m2 X k); [exact Hwf|lia|exact Hv|exact Hl2|exact Hk2]|].
           intros i j Hi Hj; cbv beta zeta. bsplit; subst; reflexivity.
      * eapply keeps_trans; [exact Hk1|]. eapply keeps_mono; [|exact Hk2].
        intros a [i [Hi ->]]. apply lc_in; assumption.
  - intros m1 [Hv Hk]. apply HQ; [|exact Hk]. eapply mval_ext; [exact Hv|].
    intros i j Hi Hj; cbv beta zeta. bsplit; reflexivity.
Qed.
End Scale.

Section Diag.
Context {K : fops} (L : ring_laws K).
Add Ring Kring4 : (rl_ring K L).
Implicit Types (m : mem K) (R W : addr -> Prop) (A : mat) (x : vec) (P : mem K -> Prop).

Lemma diag_row n (t : bool) (f : nat -> nat -> K) (h : nat -> K) i : i < n ->
  sum n (fun j => tr t (diagpart f) i j * h j)%F = (tr t f i i * h i)%F.
Proof.
  intros Hi. rewrite (sum_single L n i).
  - destruct t; cbn; unfold diagpart; rewrite Nat.eqb_refl; reflexivity.
  - exact Hi.
  - intros j Hj Hij. destruct t; cbn; unfold diagpart;
      (match goal with |- context [?a =? ?b] => destruct (Nat.eqb_spec a b); [lia|] end);
      [rewrite (fconj_0 L)|]; ring.
Qed.

Lemma rd_diag R W (t : bool) A f i m :
  rdok R W (inp A eq) -> pval m A eq f -> i < Nat.min (mrows A) (mcols A) ->
  wp R W (if t then mloadc A i i else mload A i i) m (fun d m' => d = tr t f i i /\ m' = m).
Proof.
  intros Hr Hm Hi. unfold mloadc, tr.
  destruct t; try apply wp_bind; (eapply wp_pval; [exact Hr|exact Hm|lia|lia|reflexivity|]); try wstep; auto.
Qed.

Lemma wp_diageval_amatrix_avector R W (t : bool) A x f g m (Q : unit -> mem K -> Prop) :
  pval m A eq f -> vval m x g -> disj (inp A eq) (inv x) ->
  rdok R W (inp A eq) -> wrok W (inv x) -> mcols A <= vdim x ->
  (forall m', vval m' x (fun i => if i <? Nat.min (mrows A) (mcols A)
        then mvec (Nat.min (mrows A) (mcols A)) (tr t (diagpart f)) g i else g i) ->
     keeps (inv x) m m' -> Q tt m') ->
  wp R W (diageval_amatrix_avector t A x) m Q.
Proof.
  intros HA Hx Hdj Hr Hw Hn HQ. unfold diageval_amatrix_avector. wstep.
  set (n := Nat.min (mrows A) (mcols A)) in *.
  apply (wp_lup R W (va x) (vdim x) 0 n g (fun i => (g i * tr t f i i)%F));
    [apply linj_vec|exact Hx|right; lia| |].
  - intros i m1 Hi Hl Hk. apply wp_bind.
    eapply wp_conseq; [apply (rd_diag R W t A f i m1 Hr); [eapply pval_keeps; eassumption|lia]|].
    cbv beta. intros d m2 [-> ->]. assert (Hv : vval m1 x (fun k => if (0 <=? k) && (k <? i)
        then (g k * tr t f k k)%F else g k)) by exact Hl.
    wstep. wstep. wrote_tac; bsplit; reflexivity.
  - intros m1 Hl Hk. apply HQ; [|exact Hk]. eapply vval_ext; [exact Hl|].
    intros i Hi; cbv beta. unfold mvec. bsplit; try reflexivity. rewrite diag_row by assumption. ring.
Qed.

(** Matrix versions: the model's loops are instances of [wp_scale]. *)
Lemma wp_diageval_amatrix R W (t : bool) A (xt : bool) X f g m (Q : unit -> mem K -> Prop) :
  mwf X -> pval m A eq f -> mval m X g -> disj (inp A eq) (inm X) ->
  rdok R W (inp A eq) -> wrok W (inm X) -> Nat.min (mrows A) (mcols A) <= lnn xt X ->
  (forall (g' : nat -> nat -> K) m',
     (forall i k, i < Nat.min (mrows A) (mcols A) -> k < nln xt X ->
        transp xt g' i k
        = mmul (Nat.min (mrows A) (mcols A)) (tr t (diagpart f)) (transp xt g) i k) ->
     (forall i k, Nat.min (mrows A) (mcols A) <= i -> i < lnn xt X -> k < nln xt X ->
        transp xt g' i k = transp xt g i k) ->
     mval m' X g' -> keeps (inm X) m m' -> Q tt m') ->
  wp R W (diageval_amatrix t A xt X) m Q.
Proof.
  intros Hwf HA Hx Hdj Hr Hw Hn HQ.
  assert (HPk : forall m1 m2, pval m1 A eq f -> keeps (inm X) m1 m2 -> pval m2 A eq f).
  { intros m1 m2 H Hk. eapply pval_keeps; eassumption. }
  unfold diageval_amatrix. set (n := Nat.min (mrows A) (mcols A)) in *.
  assert (H : wp R W (for_ 0 n (fun i => d <- (if t then mloadc A i i else mload A i i) ;;
    for_ 0 (nln xt X) (fun j =>
      v <- pload (lc (negb xt) X i j) ;; pstore (lc (negb xt) X i j) (v * d)%F))) m Q).
  { apply (wp_scale R W (fun m => pval m A eq f) xt X n _ (fun i => tr t f i i) (fun d => d) g);
      [exact Hwf|exact Hx|exact HA|exact HPk|exact Hw|exact Hn| |].
    - intros i m1 Hi HP. apply rd_diag; [exact Hr|exact HP|lia].
    - intros m' Hm Hk. eapply HQ; [| |exact Hm|exact Hk].
      + intros i k Hi Hk'. unfold mmul. rewrite diag_row by exact Hi.
        unfold transp. destruct xt; cbv zeta; bsplit; ring.
      + intros i k Hi Hi' Hk'. unfold transp. destruct xt; cbv zeta; bsplit; reflexivity. }
  destruct xt; exact H.
Qed.

Lemma wp_diageval_realavector_amatrix R W alpha (t : bool) (a : vec) (xt : bool) X f g m
  (Q : unit -> mem K -> Prop) :
  mwf X -> vval m a f -> mval m X g -> disj (inv a) (inm X) ->
  (forall i, i < vdim a -> fconj (f i) = f i) ->
  rdok R W (inv a) -> wrok W (inm X) -> lnn xt X <= vdim a ->
  (forall (g' : nat -> nat -> K) m',
     (forall i k, i < lnn xt X -> k < nln xt X ->
        tr xt g' i k = (alpha * f i * tr xt g i k)%F) ->
     mval m' X g' -> keeps (inm X) m m' -> Q tt m') ->
  wp R W (diageval_realavector_amatrix alpha t a xt X) m Q.
Proof.
  intros Hwf HA Hx Hdj Hc Hr Hw Hn HQ.
  assert (HPk : forall m1 m2, vval m1 a f -> keeps (inm X) m1 m2 -> vval m2 a f).
  { intros m1 m2 H Hk. eapply vval_keeps; eassumption. }
  unfold diageval_realavector_amatrix.
  set (h := fun d : K => if xt then (if t then (fconj alpha * d)%F else fconj (alpha * d)%F)
                     else (if t then (alpha * fconj d)%F else (alpha * d)%F)).
  assert (H : wp R W (for_ 0 (lnn xt X) (fun i => d <- vload a i ;;
    for_ 0 (nln xt X) (fun j =>
      v <- pload (lc (negb xt) X i j) ;; pstore (lc (negb xt) X i j) (v * h d)%F))) m Q).
  { apply (wp_scale R W (fun m => vval m a f) xt X (lnn xt X) _ f h g);
      [exact Hwf|exact Hx|exact HA|exact HPk|exact Hw|lia| |].
    - intros i m1 Hi HP. wstep. auto.
    - intros m' Hm Hk. eapply HQ; [|exact Hm|exact Hk].
      intros i k Hi Hk'. unfold tr, h. assert (Ec := Hc i ltac:(lia)).
      destruct xt; cbv zeta;
        [destruct (Nat.ltb_spec i (lnn true X)); [|lia]|destruct (Nat.ltb_spec i (lnn false X)); [|lia]];
        destruct t; rewrite ?(rl_conj_mul K L), ?(rl_conj_conj K L), ?Ec; ring. }
  destruct xt; unfold lnn in Hn; wstep.
  - destruct ((vdim a <? 1) || (mrows X <? 1)) eqn:E; [|exact H].
    cbn [wp]. apply (HQ g m); [|exact Hx|apply keeps_refl].
    intros i k Hi Hk. unfold lnn, nln in *. apply orb_true_iff in E. rewrite !Nat.ltb_lt in E. lia.
  - destruct ((vdim a <? 1) || (mcols X <? 1)) eqn:E; [|exact H].
    cbn [wp]. apply (HQ g m); [|exact Hx|apply keeps_refl].
    intros i k Hi Hk. unfold lnn, nln in *. apply orb_true_iff in E. rewrite !Nat.ltb_lt in E. lia.
Qed.
End Diag.

Section DiagSolve.
Context {K : fops} (L : field_laws K).
Add Ring Kring5 : (rl_ring K (fl_ring K L)).
Implicit Types (m : mem K) (R W : addr -> Prop) (A : mat) (x : vec) (P : mem K -> Prop).

Lemma tr_n0 (t : bool) (f : nat -> nat -> K) i : f i i <> f0 -> tr t f i i <> f0.
Proof. intros H. destruct t; cbn; [apply (fconj_n0 L)|]; exact H. Qed.

Lemma wp_diagsolve_amatrix_avector R W (t : bool) A x f g m (Q : unit -> mem K -> Prop) :
  pval m A eq f -> vval m x g -> disj (inp A eq) (inv x) ->
  rdok R W (inp A eq) -> wrok W (inv x) -> Nat.min (mrows A) (mcols A) <= vdim x ->
  (forall i, i < Nat.min (mrows A) (mcols A) -> f i i <> f0) ->
  (forall (x' : nat -> K) m',
     (forall i, i < Nat.min (mrows A) (mcols A) ->
        mvec (Nat.min (mrows A) (mcols A)) (tr t (diagpart f)) x' i = g i) ->
     (forall i, Nat.min (mrows A) (mcols A) <= i -> i < vdim x -> x' i = g i) ->
     vval m' x x' -> keeps (inv x) m m' -> Q tt m') ->
  wp R W (diagsolve_amatrix_avector t A x) m Q.
Proof.
  intros HA Hx Hdj Hr Hw Hn Hd HQ. unfold diagsolve_amatrix_avector.
  set (n := Nat.min (mrows A) (mcols A)) in *.
  assert (H : wp R W (for_ 0 n (fun i => v <- vload x i ;;
     d <- (if t then mloadc A i i else mload A i i) ;; vstore x i (v / d)%F)) m Q).
  { apply (wp_lup R W (va x) (vdim x) 0 n g (fun i => (g i / tr t f i i)%F));
      [apply linj_vec|exact Hx|right; lia| |].
    - intros i m1 Hi Hl Hk. assert (Hv : vval m1 x (fun k => if (0 <=? k) && (k <? i)
        then (g k / tr t f k k)%F else g k)) by exact Hl.
      wstep. apply wp_bind.
      eapply wp_conseq; [apply (rd_diag R W t A f i m1 Hr); [eapply pval_keeps; eassumption|lia]|].
      cbv beta. intros d m2 [-> ->].
      wstep. wrote_tac; bsplit; reflexivity.
    - intros m1 Hl Hk. eapply HQ; [| |exact Hl|exact Hk].
      + intros i Hi. unfold mvec. rewrite (diag_row (fl_ring K L)) by exact Hi.
        bsplit. apply (mul_div L). apply tr_n0. auto.
      + intros i Hi Hi'. cbv beta. bsplit; reflexivity. }
  destruct t; exact H.
Qed.

Lemma wp_diagsolve_amatrix R W (t : bool) A (xt : bool) X f g m (Q : unit -> mem K -> Prop) :
  mwf X -> pval m A eq f -> mval m X g -> disj (inp A eq) (inm X) ->
  rdok R W (inp A eq) -> wrok W (inm X) -> Nat.min (mrows A) (mcols A) <= lnn xt X ->
  (forall i, i < Nat.min (mrows A) (mcols A) -> f i i <> f0) ->
  (forall (g' : nat -> nat -> K) m',
     (forall i k, i < Nat.min (mrows A) (mcols A) -> k < nln xt X ->
        mmul (Nat.min (mrows A) (mcols A)) (tr t (diagpart f)) (transp xt g') i k
        = transp xt g i k) ->
     (forall i k, Nat.min (mrows A) (mcols A) <= i -> i < lnn xt X -> k < nln xt X ->
        transp xt g' i k = transp xt g i k) ->
     mval m' X g' -> keeps (inm X) m m' -> Q tt m') ->
  wp R W (diagsolve_amatrix t A xt X) m Q.
Proof.
  intros Hwf HA Hx Hdj Hr Hw Hn Hd HQ.
  assert (HPk : forall m1 m2, pval m1 A eq f -> keeps (inm X) m1 m2 -> pval m2 A eq f).
  { intros m1 m2 H Hk. eapply pval_keeps; eassumption. }
  unfold diagsolve_amatrix. set (n := Nat.min (mrows A) (mcols A)) in *.
  assert (H : wp R W (for_ 0 n (fun i => d <- (if t then mloadc A i i else mload A i i) ;;
    for_ 0 (nln xt X) (fun j =>
      v <- pload (lc (negb xt) X i j) ;; pstore (lc (negb xt) X i j) (v * (f1 / d))%F))) m Q).
  { apply (wp_scale R W (fun m => pval m A eq f) xt X n _ (fun i => tr t f i i) (fun d => f1 / d)%F g);
      [exact Hwf|exact Hx|exact HA|exact HPk|exact Hw|exact Hn| |].
    - intros i m1 Hi HP. apply rd_diag; [exact Hr|exact HP|lia].
    - intros m' Hm Hk. eapply HQ; [| |exact Hm|exact Hk].
      + intros i k Hi Hk'. unfold mmul. rewrite (diag_row (fl_ring K L)) by exact Hi.
        unfold transp. destruct xt; cbv zeta; bsplit; apply (inv_mul L); apply tr_n0; auto.
      + intros i k Hi Hi' Hk'. unfold transp. destruct xt; cbv zeta; bsplit; reflexivity. }
  destruct xt; exact H.
Qed.
End DiagSolve.

Section AddMul.
Context {K : fops} (L : ring_laws K).
Add Ring Kring6 : (rl_ring K L).
Implicit Types (m : mem K) (R W : addr -> Prop) (A B C : mat) (P : mem K -> Prop).

Lemma wp_addouter R W P alpha la lb C aoff adim boff bdim (u v : nat -> K) f m
  (Q : unit -> mem K -> Prop) :
  mwf C -> mval m C f -> P m -> (forall m1 m2, P m1 -> keeps (inm C) m1 m2 -> P m2) ->
  wrok W (inm C) -> adim = 0 \/ aoff + adim <= mrows C -> bdim = 0 \/ boff + bdim <= mcols C ->
  (forall i m1, aoff <= i < aoff + adim -> P m1 -> wp R W (la i) m1 (fun a m2 => a = u i /\ m2 = m1)) ->
  (forall k m1, boff <= k < boff + bdim -> P m1 -> wp R W (lb k) m1 (fun a m2 => a = v k /\ m2 = m1)) ->
  (forall i, i < mrows C -> ~ aoff <= i < aoff + adim -> u i = f0) ->
  (forall k, k < mcols C -> ~ boff <= k < boff + bdim -> v k = f0) ->
  (forall m', mval m' C (fun i k => f i k + alpha * u i * v k)%F -> keeps (inm C) m m' -> Q tt m') ->
  wp R W (addouter alpha la lb C aoff adim boff bdim) m Q.
Proof.
  intros Hwf Hf HP HPk Hw Ha Hb Hla Hlb Hu Hv HQ. unfold addouter.
  apply (wp_conseq _ R W m (fun _ m' => mval m' C (fun i k => f i k + alpha * u i * v k)%F
                                        /\ keeps (inm C) m m')).
  2:{ cbv beta. intros [] m' [H1 H2]. apply HQ; assumption. }
  (* one cell at a time; cells outside the rectangle do not change *)
  set (g := fun i k => (f i k + alpha * u i * v k)%F).
  apply (wp_for (fun q m1 => mval m1 C (fun i k =>
     if (aoff <=? i) && (i <? aoff + adim) && (boff <=? k) && (k <? boff + q) then g i k else f i k)
     /\ keeps (inm C) m m1)).
  - split; [|apply keeps_refl]. eapply mval_ext; [exact Hf|]. intros i k _ _; cbv beta. bsplit; reflexivity.
  - intros q m1 Hq [Hv1 Hk1].
    apply (wp_for (fun p m2 => mval m2 C (fun i k =>
       if ((aoff <=? i) && (i <? aoff + adim) && (boff <=? k) && (k <? boff + q)
           || (k =? boff + q) && (aoff <=? i) && (i <? aoff + p)) then g i k else f i k)
       /\ keeps (inm C) m m2)).
    + split; [|exact Hk1]. eapply mval_ext; [exact Hv1|]. intros i k _ _; cbv beta. bsplit; reflexivity.
    + intros p m2 Hp [Hv2 Hk2]. assert (HP2 := HPk m m2 HP Hk2).
      wstep. apply wp_bind. eapply wp_conseq; [apply Hla; [lia|exact HP2]|].
      cbv beta. intros a m3 [-> ->]. apply wp_bind. eapply wp_conseq; [apply Hlb; [lia|exact HP2]|].
      cbv beta. intros b m3 [-> ->]. wstep.
      assert (Hwr : wrote m2 (ma C (aoff + p) (boff + q)) (g (aoff + p) (boff + q))%nat
         (upd m2 (ma C (aoff + p) (boff + q)) (f (aoff + p)%nat (boff + q)%nat
             + alpha * u (aoff + p)%nat * v (boff + q)%nat)%F)).
      { wrote_tac. }
      match goal with |- context [upd m2 ?a ?e] =>
        replace e with (f (aoff + p)%nat (boff + q)%nat
             + alpha * u (aoff + p)%nat * v (boff + q)%nat)%F end.
      2:{ bsplit; reflexivity. }
      split.
      * eapply mval_fupd_step; [exact Hwf|exact Hv2|exact Hwr|lia|].
        intros k l Hk' Hl'; cbv beta. bsplit; subst; reflexivity.
      * eapply wrote_keeps; [exact Hk2|exact Hwr|]. apply inm_ma; lia.
    + intros m2 [Hv2 Hk2]. split; [|exact Hk2]. eapply mval_ext; [exact Hv2|].
      intros k l _ _; cbv beta. bsplit; reflexivity.
  - intros m1 [Hv1 Hk]. split; [|exact Hk]. eapply mval_ext; [exact Hv1|].
    intros i k Hi Hk'; cbv beta. rewrite Nat.add_0_l. unfold g.
    destruct ((aoff <=? i) && (i <? aoff + adim)) eqn:E1;
      [destruct ((boff <=? k) && (k <? boff + bdim)) eqn:E2|].
    + rewrite <- andb_assoc, E2. reflexivity.
    + rewrite <- andb_assoc, E2. cbn [andb]. rewrite (Hv k Hk'); [ring|].
      intros H. apply andb_false_iff in E2. rewrite Nat.leb_gt, Nat.ltb_ge in E2. lia.
    + cbn [andb]. rewrite (Hu i Hi); [ring|].
      intros H. apply andb_false_iff in E1. rewrite Nat.leb_gt, Nat.ltb_ge in E1. lia.
Qed.

Lemma wp_addouters R W P alpha n (body : nat -> prog K unit) C (U V : nat -> nat -> K) f m
  (Q : unit -> mem K -> Prop) :
  mval m C f -> P m -> (forall m1 m2, P m1 -> keeps (inm C) m1 m2 -> P m2) ->
  (forall j f1 m1 (Q1 : unit -> mem K -> Prop), j < n -> mval m1 C f1 -> P m1 ->
     (forall m2, mval m2 C (fun i k => f1 i k + alpha * U i j * V j k)%F -> keeps (inm C) m1 m2 ->
        Q1 tt m2) -> wp R W (body j) m1 Q1) ->
  (forall m', mval m' C (fun i k => f i k + alpha * mmul n U V i k)%F -> keeps (inm C) m m' -> Q tt m') ->
  wp R W (for_ 0 n body) m Q.
Proof.
  intros Hf HP HPk Hb HQ.
  apply (wp_for (fun j m1 => mval m1 C (fun i k => f i k + alpha * mmul j U V i k)%F
                             /\ keeps (inm C) m m1)).
  - split; [|apply keeps_refl]. eapply mval_ext; [exact Hf|]. intros; unfold mmul; cbn. ring.
  - intros j m1 Hj [Hv Hk]. eapply Hb; [lia|exact Hv|exact (HPk m m1 HP Hk)|].
    intros m2 Hv2 Hk2. split; [|eapply keeps_trans; eassumption].
    eapply mval_ext; [exact Hv2|]. intros i k _ _; cbv beta. unfold mmul; cbn. ring.
  - intros m1 [Hv Hk]. apply HQ; [|exact Hk]. exact Hv.
Qed.

Lemma tri_out (lower t : bool) (f : nat -> nat -> K) i j :
  (if xorb lower t then i < j else j < i) -> tr t (tripart lower false f) i j = f0.
Proof. apply (RT_zero L). Qed.

Lemma wp_triangularaddmul_amatrix R W alpha (alo at_ : bool) A (blo bt : bool) B C fa fb f m
  (Q : unit -> mem K -> Prop) :
  mwf C -> pval m A (intri alo false) fa -> pval m B (intri blo false) fb -> mval m C f ->
  disj (inp A (intri alo false)) (inm C) -> disj (inp B (intri blo false)) (inm C) ->
  rdok R W (inp A (intri alo false)) -> rdok R W (inp B (intri blo false)) -> wrok W (inm C) ->
  mrows C = oprows at_ A -> opcols at_ A = oprows bt B -> mcols C = opcols bt B ->
  (forall m', mval m' C (fun i k => f i k
        + alpha * mmul (opcols at_ A) (tr at_ (tripart alo false fa)) (tr bt (tripart blo false fb)) i k)%F ->
     keeps (inm C) m m' -> Q tt m') ->
  wp R W (triangularaddmul_amatrix alpha alo at_ A blo bt B C) m Q.
Proof.
  intros Hwf HA HB HC D1 D2 R1 R2 Hw E1 E2 E3 HQ.
  set (P := fun m => pval m A (intri alo false) fa /\ pval m B (intri blo false) fb).
  assert (HPk : forall m1 m2, P m1 -> keeps (inm C) m1 m2 -> P m2).
  { intros m1 m2 [X Y] Hk. split; eapply pval_keeps; eassumption. }
  assert (HP : P m) by (split; assumption).
  assert (TA : forall (g : nat -> nat -> K) lo t i j, (if xorb lo t then j <= i else i <= j) ->
     tr t (tripart lo false g) i j = tr t g i j).
  { intros g lo t i j H. apply T_entry. destruct (Nat.eq_dec i j) as [->|Ne]; [tauto|right].
    destruct (xorb lo t); lia. }
  unfold triangularaddmul_amatrix, oprows, opcols in *.
  destruct at_, bt; wstep; wstep; wstep.
  all: match goal with |- wp _ _ (for_ 0 ?N _) _ _ =>
         eapply (wp_addouters R W P alpha N _ C _ _ f); [exact HC|exact HP|exact HPk| |exact HQ] end.
  all: intros j h m1 Q1 Hj Hm1 HP1 HQ1;
       eapply (wp_addouter R W P alpha);
         [exact Hwf|exact Hm1|exact HP1|exact HPk|exact Hw| | | | | | |exact HQ1];
       destruct alo, blo; cbv zeta; try lia.
  all: try (intros i m2 Hi [PA PB]; unfold mloadc; try apply wp_bind;
            first [eapply wp_pval; [exact R1|exact PA|lia|lia|unfold intri; lia|]
                  |eapply wp_pval; [exact R2|exact PB|lia|lia|unfold intri; lia|]];
            try wstep; split; [|reflexivity]; symmetry; apply TA; cbn; lia).
  all: intros i Hi Ho; apply tri_out; cbn; lia.
Qed.
End AddMul.

Section Copy.
Context {K : fops}.
Implicit Types (m : mem K) (R W : addr -> Prop) (A B C : mat) (P : mem K -> Prop).

(** Columns [lo, lo + n) are replaced one after the other. *)
Lemma wp_cols R W P B lo n body (f G : nat -> nat -> K) m (Q : unit -> mem K -> Prop) :
  mwf B -> mval m B f -> P m -> (forall m1 m2, P m1 -> keeps (inm B) m1 m2 -> P m2) ->
  n = 0 \/ lo + n <= mcols B ->
  (forall k m1 (Q1 : unit -> mem K -> Prop), lo <= k < lo + n ->
     lval m1 (fun i => ma B i k) (mrows B) (fun i => f i k) -> P m1 ->
     (forall m2, lval m2 (fun i => ma B i k) (mrows B) (fun i => G i k) ->
        keeps (inl (fun i => ma B i k) (mrows B)) m1 m2 -> Q1 tt m2) ->
     wp R W (body k) m1 Q1) ->
  (forall m', mval m' B (fun i j => if (lo <=? j) && (j <? lo + n) then G i j else f i j) ->
     keeps (inm B) m m' -> Q tt m') ->
  wp R W (for_ lo n body) m Q.
Proof.
  intros Hwf Hf HP HPk Hn Hb HQ.
  apply (wp_for (fun k m1 => mval m1 B (fun i j => if (lo <=? j) && (j <? k) then G i j else f i j)
                             /\ keeps (inm B) m m1)).
  - split; [|apply keeps_refl]. eapply mval_ext; [exact Hf|]. intros i j _ _; cbv beta. bsplit; reflexivity.
  - intros k m1 Hk [Hv Hk1]. apply Hb; [exact Hk| |exact (HPk m m1 HP Hk1)|].
    + intros i Hi. rewrite (Hv i k) by lia. bsplit; reflexivity.
    + intros m2 Hl Hk2. split.
      * eapply mval_ext; [eapply (mval_col m1 m2 B k); [exact Hwf|lia|exact Hv|exact Hl|exact Hk2]|].
        intros i j Hi Hj; cbv beta. bsplit; subst; reflexivity.
      * eapply keeps_trans; [exact Hk1|]. eapply keeps_col; [|exact Hk2]. lia.
  - intros m1 [Hv Hk]. apply HQ; assumption.
Qed.

Section Col.
Variables (R W : addr -> Prop) (P : mem K -> Prop) (c : nat -> addr) (N : nat).
Hypothesis Hj : linj c N.
Hypothesis HW : forall i, i < N -> W (c i).
Hypothesis HPk : forall m1 m2, P m1 -> keeps (inl c N) m1 m2 -> P m2.

Lemma wp_lfill lo n v f m (Q : unit -> mem K -> Prop) :
  lval m c N f -> n = 0 \/ lo + n <= N ->
  (forall m', lval m' c N (fun i => if (lo <=? i) && (i <? lo + n) then v else f i) ->
     keeps (inl c N) m m' -> Q tt m') ->
  wp R W (for_ lo n (fun i => pstore (c i) v)) m Q.
Proof.
  intros Hf Hn HQ. apply (wp_lup R W c N lo n f (fun _ => v)); [exact Hj|exact Hf|exact Hn| |exact HQ].
  intros i m1 Hi Hl Hk. eapply (wp_st R W c N HW); [exact Hl|lia|reflexivity|auto].
Qed.

Lemma wp_lcopy lo n (rd : nat -> prog K K) (h : nat -> K) f m (Q : unit -> mem K -> Prop) :
  lval m c N f -> P m -> n = 0 \/ lo + n <= N ->
  (forall i m1, lo <= i < lo + n -> P m1 -> wp R W (rd i) m1 (fun a m2 => a = h i /\ m2 = m1)) ->
  (forall m', lval m' c N (fun i => if (lo <=? i) && (i <? lo + n) then h i else f i) ->
     keeps (inl c N) m m' -> Q tt m') ->
  wp R W (for_ lo n (fun i => x <- rd i ;; pstore (c i) x)) m Q.
Proof.
  intros Hf HP Hn Hrd HQ. apply (wp_lup R W c N lo n f h); [exact Hj|exact Hf|exact Hn| |exact HQ].
  intros i m1 Hi Hl Hk. apply wp_bind.
  eapply wp_conseq; [apply Hrd; [exact Hi|exact (HPk m m1 HP Hk)]|]. cbv beta. intros a m2 [-> ->].
  eapply (wp_st R W c N HW); [exact Hl|lia|reflexivity|auto].
Qed.
End Col.

Lemma wp_copy_lower_amatrix R W A (aunit : bool) B f g m (Q : unit -> mem K -> Prop) :
  mwf B -> pval m A (intri true aunit) f -> mval m B g -> disj (inp A (intri true aunit)) (inm B) ->
  rdok R W (inp A (intri true aunit)) -> wrok W (inm B) ->
  (forall m', mval m' B (fun i j =>
        if i <? Nat.min (mrows A) (mrows B) then
          if j <? mcols A then tripart true aunit f i j else f0
        else g i j) -> keeps (inm B) m m' -> Q tt m') ->
  wp R W (copy_lower_amatrix A aunit B) m Q.
Proof.
  intros Hwf HA HB Hd Hr Hw HQ. unfold copy_lower_amatrix.
  set (rows := Nat.min (mrows A) (mrows B)). set (cols := Nat.min (mcols A) (mcols B)).
  assert (HPk : forall m1 m2, pval m1 A (intri true aunit) f -> keeps (inm B) m1 m2 -> pval m2 A (intri true aunit) f).
  { intros m1 m2 H Hk. eapply pval_keeps; eassumption. }
  assert (HW : forall k, k < mcols B -> forall i, i < mrows B -> W (ma B i k)).
  { intros k Hk i Hi. apply Hw. apply inm_ma; assumption. }
  assert (HPl : forall k, k < mcols B -> forall m1 m2, pval m1 A (intri true aunit) f ->
      keeps (inl (fun i => ma B i k) (mrows B)) m1 m2 -> pval m2 A (intri true aunit) f).
  { intros k Hk m1 m2 H Hkp. eapply HPk; [exact H|]. eapply keeps_col; eassumption. }
  apply wp_bind.
  apply (wp_cols R W (fun m => pval m A (intri true aunit) f) B 0 cols _ g
           (fun i j => if i <? rows then tripart true aunit f i j else g i j));
    [exact Hwf|exact HB|exact HA|exact HPk|right; lia| |].
  - intros k m1 Q1 Hk Hl HP1 HQ1. assert (Hkb : k < mcols B) by lia.
    pose proof (linj_col B k Hwf) as Hj. apply wp_bind.
    apply (wp_lfill R W (fun i => ma B i k) (mrows B) Hj (HW k Hkb) 0 (Nat.min rows k) f0 _ _ _ Hl);
      [right; lia|]. intros m2 Hl2 Hk2. apply wp_bind.
    set (i0 := if aunit && (Nat.min rows k <? rows) && (Nat.min rows k =? k)
               then Nat.min rows k + 1 else Nat.min rows k).
    apply (wp_conseq _ R W m2 (fun i m3 => i = i0 /\
      lval m3 (fun i => ma B i k) (mrows B) (fun i => if i <? i0 then tripart true aunit f i k else g i k)
      /\ keeps (inl (fun i => ma B i k) (mrows B)) m2 m3)).
    { subst i0. destruct (aunit && (Nat.min rows k <? rows) && (Nat.min rows k =? k)) eqn:E.
      - rewrite !andb_true_iff, Nat.ltb_lt, Nat.eqb_eq in E. destruct E as [[Eu E1] E2].
        apply wp_bind. eapply (wp_st R W (fun i => ma B i k) (mrows B) (HW k Hkb));
          [exact Hl2|lia|reflexivity|]. intros m3 Hm3. cbn [wp]. split; [reflexivity|]. split.
        + eapply lval_step; [exact Hj| |exact Hl2|exact Hm3|]; [lia|].
          intros i Hi; cbv beta. unfold tripart. rewrite Eu. bsplit; reflexivity.
        + eapply wrote_keeps; [apply keeps_refl|exact Hm3|]. exists (Nat.min rows k). split; [lia|reflexivity].
      - cbn [wp]. split; [reflexivity|]. split; [|apply keeps_refl].
        eapply lval_ext; [exact Hl2|]. intros i Hi; cbv beta. unfold tripart. bsplit; reflexivity. }
    cbv beta. intros i m3 [-> [Hl3 Hk3]].
    assert (Hi0 : i0 <= rows /\ (if aunit then k < i0 \/ i0 = rows else k <= i0 \/ i0 = rows)).
    { subst i0. destruct aunit; cbn [andb]; bsplit; lia. }
    assert (HP3 : pval m3 A (intri true aunit) f).
    { eapply (HPl k Hkb); [|exact Hk3]. eapply (HPl k Hkb); [exact HP1|exact Hk2]. }
    apply (wp_lcopy R W (fun m => pval m A (intri true aunit) f) (fun i => ma B i k) (mrows B) Hj (HW k Hkb) (HPl k Hkb)
             i0 (rows - i0) (fun i => mload A i k) (fun i => f i k) _ _ _ Hl3 HP3); [right; lia| |].
    + intros i m4 Hi HP4. eapply wp_pval; [exact Hr|exact HP4|lia|lia|unfold intri; destruct aunit; [right; lia|destruct (Nat.eq_dec i k); [left; split; [assumption|reflexivity]|right; lia]]|]. auto.
    + intros m4 Hl4 Hk4. apply HQ1.
      * eapply lval_ext; [exact Hl4|]. intros i Hi; cbv beta. unfold tripart.
        destruct aunit; bsplit; try reflexivity; try lia.
      * eapply keeps_trans; [exact Hk2|]. eapply keeps_trans; [exact Hk3|exact Hk4].
  - intros m1 Hm1 Hk1.
    assert (HQ2 : forall m', mval m' B (fun i j => if (cols <=? j) && (j <? cols + (mcols B - cols))
        then (if i <? rows then f0 else g i j) else
        (if (0 <=? j) && (j <? 0 + cols) then (if i <? rows then tripart true aunit f i j else g i j) else g i j))
        -> keeps (inm B) m1 m' -> Q tt m').
    { intros m2 Hm2 Hk2. apply HQ; [|eapply keeps_trans; eassumption].
      eapply mval_ext; [exact Hm2|]. intros i j Hi Hj; cbv beta. fold rows. bsplit; reflexivity. }
    eapply (wp_cols R W (fun m => pval m A (intri true aunit) f) B cols (mcols B - cols) _ _
              (fun i j => if i <? rows then f0 else g i j));
      [exact Hwf|exact Hm1|exact (HPk m m1 HA Hk1)|exact HPk|right; lia| |exact HQ2].
    intros k m2 Q1 Hk Hl HP1 HQ1. assert (Hkb : k < mcols B) by lia.
    pose proof (linj_col B k Hwf) as Hj.
    apply (wp_lfill R W (fun i => ma B i k) (mrows B) Hj (HW k Hkb) 0 rows f0 _ _ _ Hl); [right; lia|].
    intros m3 Hl3 Hk3. apply HQ1; [|exact Hk3]. eapply lval_ext; [exact Hl3|].
    intros i Hi; cbv beta. bsplit; reflexivity.
Qed.

Lemma wp_copy_upper_amatrix R W A (aunit : bool) B f g m (Q : unit -> mem K -> Prop) :
  mwf B -> pval m A (intri false aunit) f -> mval m B g -> disj (inp A (intri false aunit)) (inm B) ->
  rdok R W (inp A (intri false aunit)) -> wrok W (inm B) ->
  (forall m', mval m' B (fun i j =>
        if j <? mcols A then
          if i <? mrows A then tripart false aunit f i j else f0
        else g i j) -> keeps (inm B) m m' -> Q tt m') ->
  wp R W (copy_upper_amatrix A aunit B) m Q.
Proof.
  intros Hwf HA HB Hd Hr Hw HQ. unfold copy_upper_amatrix.
  set (rows := Nat.min (mrows A) (mrows B)). set (cols := Nat.min (mcols A) (mcols B)).
  assert (HPk : forall m1 m2, pval m1 A (intri false aunit) f -> keeps (inm B) m1 m2 -> pval m2 A (intri false aunit) f).
  { intros m1 m2 H Hk. eapply pval_keeps; eassumption. }
  assert (HW : forall k, k < mcols B -> forall i, i < mrows B -> W (ma B i k)).
  { intros k Hk i Hi. apply Hw. apply inm_ma; assumption. }
  assert (HPl : forall k, k < mcols B -> forall m1 m2, pval m1 A (intri false aunit) f ->
      keeps (inl (fun i => ma B i k) (mrows B)) m1 m2 -> pval m2 A (intri false aunit) f).
  { intros k Hk m1 m2 H Hkp. eapply HPk; [exact H|]. eapply keeps_col; eassumption. }
  apply (wp_cols R W (fun m => pval m A (intri false aunit) f) B 0 cols _ g
           (fun i j => if i <? mrows A then tripart false aunit f i j else f0));
    [exact Hwf|exact HB|exact HA|exact HPk|right; lia| |].
  2:{ intros m1 Hm1 Hk1. apply HQ; [|exact Hk1]. eapply mval_ext; [exact Hm1|].
      intros i j Hi Hj; cbv beta. bsplit; reflexivity. }
  intros k m1 Q1 Hk Hl HP1 HQ1. assert (Hkb : k < mcols B) by lia.
  pose proof (linj_col B k Hwf) as Hj. apply wp_bind.
  set (i0 := if aunit then (if (Nat.min rows k <? rows) && (Nat.min rows k =? k)
             then Nat.min rows k + 1 else Nat.min rows k) else Nat.min rows (k + 1)).
  apply (wp_conseq _ R W m1 (fun i m3 => i = i0 /\
      lval m3 (fun i => ma B i k) (mrows B) (fun i => if i <? i0 then tripart false aunit f i k else g i k)
      /\ keeps (inl (fun i => ma B i k) (mrows B)) m1 m3)).
  { subst i0. destruct aunit.
    - apply wp_bind.
      apply (wp_lcopy R W (fun m => pval m A (intri false _) f) (fun i => ma B i k) (mrows B) Hj (HW k Hkb) (HPl k Hkb)
             0 (Nat.min rows k) (fun i => mload A i k) (fun i => f i k) _ _ _ Hl HP1); [right; lia| |].
      { intros i m4 Hi HP4. eapply wp_pval; [exact Hr|exact HP4|lia|lia|unfold intri; first [right; lia|destruct (Nat.eq_dec i k); [left; split; [assumption|reflexivity]|right; lia]]|]. auto. }
      intros m2 Hl2 Hk2. cbv zeta.
      destruct ((Nat.min rows k <? rows) && (Nat.min rows k =? k)) eqn:E.
      + rewrite !andb_true_iff, Nat.ltb_lt, Nat.eqb_eq in E. destruct E as [E1 E2].
        apply wp_bind. eapply (wp_st R W (fun i => ma B i k) (mrows B) (HW k Hkb));
          [exact Hl2|lia|reflexivity|]. intros m3 Hm3. cbn [wp]. split; [reflexivity|]. split.
        * eapply lval_step; [exact Hj| |exact Hl2|exact Hm3|]; [lia|].
          intros i Hi; cbv beta. unfold tripart. bsplit; reflexivity.
        * eapply wrote_keeps; [exact Hk2|exact Hm3|]. exists (Nat.min rows k). split; [lia|reflexivity].
      + cbn [wp]. split; [reflexivity|]. split; [|exact Hk2].
        eapply lval_ext; [exact Hl2|]. intros i Hi; cbv beta. unfold tripart. bsplit; reflexivity.
    - apply wp_bind.
      apply (wp_lcopy R W (fun m => pval m A (intri false _) f) (fun i => ma B i k) (mrows B) Hj (HW k Hkb) (HPl k Hkb)
             0 (Nat.min rows (k + 1)) (fun i => mload A i k) (fun i => f i k) _ _ _ Hl HP1); [right; lia| |].
      { intros i m4 Hi HP4. eapply wp_pval; [exact Hr|exact HP4|lia|lia|unfold intri; first [right; lia|destruct (Nat.eq_dec i k); [left; split; [assumption|reflexivity]|right; lia]]|]. auto. }
      intros m2 Hl2 Hk2. cbn [wp]. split; [reflexivity|]. split; [|exact Hk2].
      eapply lval_ext; [exact Hl2|]. intros i Hi; cbv beta. unfold tripart. bsplit; reflexivity. }
  cbv beta. intros i m3 [-> [Hl3 Hk3]].
  assert (Hi0 : i0 <= rows /\ (k < i0 \/ i0 = rows)).
  { subst i0. destruct aunit; cbn [andb]; bsplit; lia. }
  apply (wp_lfill R W (fun i => ma B i k) (mrows B) Hj (HW k Hkb) i0 (mrows B - i0) f0 _ _ _ Hl3);
    [right; lia|].
  intros m4 Hl4 Hk4. apply HQ1; [|eapply keeps_trans; eassumption].
  eapply lval_ext; [exact Hl4|]. intros i Hi; cbv beta. unfold tripart.
  bsplit; reflexivity.
Qed.
End Copy.
