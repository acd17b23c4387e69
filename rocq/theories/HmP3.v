(** * Proofs about H-matrices: products with hermitian matrices given by their lower half *)
From Coq Require Import Arith Lia List Bool Ring Permutation.
From Verif Require Import Fld Ord Prog Arr View Spec Loop Cluster Block BlockP Avector AvectorP Amatrix AmatrixP AmatrixP2 Norm NormP
  Rkmatrix RkSpec RkP Hmatrix HmSpec HmP HmP2.
Import ListNotations.

(** [p] is one of the [k] indices from [off] on *)
Definition inb (off k p : nat) : bool := (off <=? p) && (p <? off + k).

Section HmP3.
Context {K : fops} {G : ofops} (L : ring_laws K).
Add Ring KringHm3 : (rl_ring K L).
Implicit Types (m : mem K) (R W : addr -> Prop) (h s : hmatrix G) (x y : vec) (D : nat -> nat -> K) (F : nat -> K) (T : nat -> bool).

(** ** Sums over parts of the index range *)
Definition msk n T F : K := sum n (fun q => if T q then F q else f0).

Lemma msk_ext n T T' F F' : (forall q, q < n -> T q = T' q) -> (forall q, q < n -> T' q = true -> F q = F' q) -> msk n T F = msk n T' F'.
Proof. intros H H'. unfold msk. apply sum_ext. intros q Hq. rewrite (H q Hq). destruct (T' q) eqn:E; [apply H'; assumption|reflexivity]. Qed.
Lemma msk_split n T T1 T2 F : (forall q, q < n -> T q = T1 q || T2 q) -> (forall q, q < n -> T1 q && T2 q = false) ->
  msk n T F = (msk n T1 F + msk n T2 F)%F.
Proof.
  intros H H'. unfold msk. rewrite <- (sum_add L). apply sum_ext. intros q Hq. specialize (H q Hq). specialize (H' q Hq).
  destruct (T q), (T1 q), (T2 q); cbn in *; try discriminate; ring.
Qed.
Lemma msk_none n T F : (forall q, q < n -> T q = false) -> msk n T F = f0.
Proof. intros H. unfold msk. apply (sum_0 L). intros q Hq. rewrite (H q Hq). reflexivity. Qed.
Lemma msk_all n T F : (forall q, q < n -> T q = true) -> msk n T F = sum n F.
Proof. intros H. unfold msk. apply sum_ext. intros q Hq. cbv beta. rewrite (H q Hq). reflexivity. Qed.
Lemma msk_add n T T' F k : k < n -> (forall q, q < n -> T' q = T q || (q =? k)) -> T k = false -> msk n T' F = (msk n T F + F k)%F.
Proof.
  intros Hk H Hn. rewrite (msk_split n T' T (fun q => q =? k) F H).
  - f_equal. unfold msk. rewrite (sum_single L n k); [rewrite Nat.eqb_refl; reflexivity|exact Hk|].
    intros i Hi Hne. rewrite (proj2 (Nat.eqb_neq i k)) by exact Hne. reflexivity.
  - intros q Hq. destruct (Nat.eqb_spec q k) as [->|]; [rewrite Hn; reflexivity|apply andb_false_r].
Qed.
Lemma msk_box n T off k F : off + k <= n -> (forall q, q < n -> T q = inb off k q) -> msk n T F = sum k (fun q => F (off + q)%nat).
Proof.
  intros Hn HT. unfold msk. replace n with (off + (k + (n - (off + k)))) by lia. rewrite (sum_app L), (sum_app L).
  rewrite (sum_0 L off).
  2:{ intros i Hi. rewrite HT by lia. unfold inb. rewrite (proj2 (Nat.leb_gt off i)) by lia. reflexivity. }
  rewrite (sum_0 L (n - (off + k))).
  2:{ intros i Hi. rewrite HT by lia. unfold inb. rewrite (proj2 (Nat.ltb_ge (off + (k + i)) (off + k))) by lia. rewrite andb_false_r. reflexivity. }
  rewrite (sum_ext k _ (fun q => F (off + q)%nat)); [ring|].
  intros i Hi. rewrite HT by lia. unfold inb. rewrite (proj2 (Nat.leb_le off (off + i))) by lia. rewrite (proj2 (Nat.ltb_lt (off + i) (off + k))) by lia. reflexivity.
Qed.

(** Part of a product on subvectors. *)
Lemma wp_half R W (op : vec -> vec -> prog K unit) alpha x y xo xk yo yk n (H M : nat -> nat -> K) f g m (Q : unit -> mem K -> Prop) :
  vval m y g -> vdim y = n -> xo + xk <= n -> yo + yk <= n ->
  (forall Q' : unit -> mem K -> Prop,
     (forall m', vval m' (subv y yo yk) (fun i => g (yo + i)%nat + alpha * sum xk (fun j => M i j * f (xo + j)%nat))%F ->
        keeps (inv (subv y yo yk)) m m' -> Q' tt m') -> wp R W (op (subv x xo xk) (subv y yo yk)) m Q') ->
  (forall i j, i < yk -> j < xk -> H (yo + i) (xo + j) = M i j) ->
  (forall m', vval m' y (fun p => g p + alpha * msk n (fun q => inb yo yk p && inb xo xk q) (fun q => H p q * f q))%F ->
     keeps (inv y) m m' -> Q tt m') ->
  wp R W (op (subv x xo xk) (subv y yo yk)) m Q.
Proof.
  intros Hy Ey Bx By Hop HM HQ. apply Hop. intros m' Hy' Hk'. apply HQ; [|eapply keeps_subv; [|exact Hk']; lia].
  eapply vval_ext; [eapply vval_subv_back; [exact Hy| |exact Hy'|exact Hk']; lia|]. intros p Hp; cbv beta.
  fold (inb yo yk p). destruct (inb yo yk p) eqn:E.
  - unfold inb in E. apply andb_prop in E. destruct E as [E1 E2]. apply Nat.leb_le in E1. apply Nat.ltb_lt in E2.
    rewrite (msk_box n _ xo xk) by (reflexivity || lia). replace (yo + (p - yo)) with p by lia. f_equal. f_equal. apply sum_ext. intros j Hj.
    rewrite <- HM by lia. replace (yo + (p - yo)) with p by lia. reflexivity.
  - rewrite msk_none by reflexivity. ring.
Qed.

Ltac bolr := unfold inb in *; repeat first [rewrite orb_true_iff | rewrite andb_true_iff | rewrite Nat.leb_le | rewrite Nat.ltb_lt | rewrite Nat.eqb_eq].
Ltac bol := apply Bool.eq_iff_eq_true; bolr; lia.
Ltac bol0 := apply Bool.not_true_iff_false; bolr; lia.

Definition boxes ro rk co ck p q : bool := (inb ro rk p && inb co ck q) || (inb co ck p && inb ro rk q).

(** Both halves. *)
Lemma wp_two R W (op1 op2 : vec -> vec -> prog K unit) alpha x y ro rk co ck n D f g m (Q : unit -> mem K -> Prop) :
  vval m y g -> vdim y = n -> co + ck <= ro -> ro + rk <= n ->
  (forall g m0 (Q' : unit -> mem K -> Prop), vval m0 y g -> keeps (inv y) m m0 ->
     (forall m', vval m' (subv y ro rk) (fun i => g (ro + i)%nat + alpha * sum ck (fun j => D (ro + i)%nat (co + j)%nat * f (co + j)%nat))%F ->
        keeps (inv (subv y ro rk)) m0 m' -> Q' tt m') -> wp R W (op1 (subv x co ck) (subv y ro rk)) m0 Q') ->
  (forall g m0 (Q' : unit -> mem K -> Prop), vval m0 y g -> keeps (inv y) m m0 ->
     (forall m', vval m' (subv y co ck) (fun i => g (co + i)%nat + alpha * sum rk (fun j => fconj (D (ro + j)%nat (co + i)%nat) * f (ro + j)%nat))%F ->
        keeps (inv (subv y co ck)) m0 m' -> Q' tt m') -> wp R W (op2 (subv x ro rk) (subv y co ck)) m0 Q') ->
  (forall m', vval m' y (fun p => g p + alpha * msk n (boxes ro rk co ck p) (fun q => herm_of D p q * f q))%F ->
     keeps (inv y) m m' -> Q tt m') ->
  wp R W (op1 (subv x co ck) (subv y ro rk)) m (fun _ m1 => wp R W (op2 (subv x ro rk) (subv y co ck)) m1 Q).
Proof.
  intros Hy Ey B1 B2 H1 H2 HQ.
  eapply (wp_half R W op1 alpha x y co ck ro rk n (herm_of D) _ f g m); [exact Hy|exact Ey|lia|lia| | |].
  - intros Q' HQ'. eapply H1; [exact Hy|apply keeps_refl|]. intros m' E1 E2. apply HQ'; [exact E1|exact E2].
  - intros i j Hi Hj. unfold herm_of. rewrite (proj2 (Nat.leb_le _ _)) by lia. reflexivity.
  - intros m1 Hy1 Hk1. eapply (wp_half R W op2 alpha x y ro rk co ck n (herm_of D) _ f _ m1); [exact Hy1|exact Ey|lia|lia| | |].
    + intros Q' HQ'. eapply H2; [exact Hy1|exact Hk1|]. intros m' E1 E2. apply HQ'; [exact E1|exact E2].
    + intros i j Hi Hj. cbv beta. unfold herm_of. rewrite (proj2 (Nat.leb_gt _ _)) by lia. reflexivity.
    + intros m2 Hy2 Hk2. apply HQ; [|eapply keeps_trans; eassumption].
      eapply vval_ext; [exact Hy2|]. intros p Hp; cbv beta.
      rewrite (msk_split n (boxes ro rk co ck p) (fun q => inb ro rk p && inb co ck q) (fun q => inb co ck p && inb ro rk q)); [ring| |].
      * intros q Hq. reflexivity.
      * intros q Hq. bol0.
Qed.

Lemma wp_offdiag h : forall R W alpha x y D f g m n roff coff (Q : unit -> mem K -> Prop),
  hrep m h (fun p q => D (roff + p) (coff + q)) -> vval m x f -> vval m y g -> vdim x = n -> vdim y = n ->
  coff + hcols h <= roff -> roff + hrows h <= n ->
  disj (inv x) (inv y) -> disj (inh h) (inv y) -> rdok R W (inh h) -> rdok R W (inv x) -> wrok W (inv y) ->
  (forall m', vval m' y (fun p => g p + alpha * msk n (boxes roff (hrows h) coff (hcols h) p) (fun q => herm_of D p q * f q))%F ->
     keeps (inv y) m m' -> Q tt m') ->
  wp R W (addevalsymm_offdiag alpha h roff coff x y) m Q.
Proof.
  induction h as [h IH] using hm_rect'. intros R W alpha x y D f g m n roff coff Q Hr Hx Hy Ex Ey B1 B2 Dxy Dhy Rh Rx Wy HQ.
  remember (fun p q => D (roff + p) (coff + q)) as D' eqn:ED.
  destruct Hr as [rc cc r ds D' H1 H2 H3|rc cc a ds D' H1 H2 H3|rc cc l rsons csons ds hs ws D' P1 P2 P3 P4 P5 P6 P7];
    cbn [addevalsymm_offdiag]; unfold hcols, hrows in B1, B2, HQ; cbn [hm_rc hm_cc] in B1, B2, HQ; subst D'.
  - apply wp_bind. apply wp_init_sub_avector; [lia|]. apply wp_bind. apply wp_init_sub_avector; [lia|]. apply wp_bind.
    assert (Dr : disj (inrk r) (inv y)) by (intros a Ha; apply Dhy; eapply inh_r; [reflexivity|exact Ha]).
    assert (Rr : rdok R W (inrk r)) by (intros a Ha; apply Rh; eapply inh_r; [reflexivity|exact Ha]).
    eapply wp_conseq.
    { eapply (wp_two R W (addeval_rkmatrix_avector alpha r) (addevaltrans_rkmatrix_avector alpha r) alpha x y roff (csz rc) coff (csz cc) n D f g m);
        [exact Hy|exact Ey|exact B1|exact B2| | |exact HQ].
      - intros g' m0 Q' Hy0 Hk0 HQ'. eapply (wp_addeval_rk L).
        + eapply rkrep_keeps; [exact H3|exact Hk0|exact Dr].
        + apply vval_subv; [eapply vval_keeps; [exact Hx|exact Hk0|exact Dxy]|lia].
        + apply vval_subv; [exact Hy0|lia].
        + cbn; lia.
        + cbn; lia.
        + apply disj_subv; [lia|]. apply (subv_disj x); [lia|exact Dxy].
        + apply (subv_disj x); [lia|exact Dr].
        + exact Rr.
        + intros a Ha. apply Rx. eapply inv_subv; [|exact Ha]. lia.
        + intros a Ha. apply Wy. eapply inv_subv; [|exact Ha]. lia.
        + intros m' Hy' Hk'. apply HQ'; [exact Hy'|exact Hk'].
      - intros g' m0 Q' Hy0 Hk0 HQ'. eapply (wp_addevaltrans_rk L).
        + eapply rkrep_keeps; [exact H3|exact Hk0|exact Dr].
        + apply vval_subv; [eapply vval_keeps; [exact Hx|exact Hk0|exact Dxy]|lia].
        + apply vval_subv; [exact Hy0|lia].
        + cbn; lia.
        + cbn; lia.
        + apply disj_subv; [lia|]. apply (subv_disj x); [lia|exact Dxy].
        + apply (subv_disj x); [lia|exact Dr].
        + exact Rr.
        + intros a Ha. apply Rx. eapply inv_subv; [|exact Ha]. lia.
        + intros a Ha. apply Wy. eapply inv_subv; [|exact Ha]. lia.
        + intros m' Hy' Hk'. apply HQ'; [exact Hy'|exact Hk']. }
    cbv beta. intros _ m1 Hw1. cbn [uninit_avector vown subv bind].
    apply wp_bind. apply wp_init_sub_avector; [lia|]. apply wp_bind. apply wp_init_sub_avector; [lia|]. apply wp_bind.
    eapply wp_conseq; [exact Hw1|]. intros [] m2 HQ2. cbn [uninit_avector vown subv bind wp]. exact HQ2.
  - apply wp_bind. apply wp_init_sub_avector; [lia|]. apply wp_bind. apply wp_init_sub_avector; [lia|]. apply wp_bind.
    assert (Dr : disj (inm a) (inv y)) by (intros b Hb; apply Dhy; eapply inh_f; [reflexivity|exact Hb]).
    assert (Rr : rdok R W (inm a)) by (intros b Hb; apply Rh; eapply inh_f; [reflexivity|exact Hb]).
    eapply wp_conseq.
    { eapply (wp_two R W (addeval_amatrix_avector alpha a) (addevaltrans_amatrix_avector alpha a) alpha x y roff (csz rc) coff (csz cc) n D f g m);
        [exact Hy|exact Ey|exact B1|exact B2| | |exact HQ].
      - intros g' m0 Q' Hy0 Hk0 HQ'. eapply wp_addeval_amatrix_avector.
        + eapply mval_keeps; [exact H3|exact Hk0|exact Dr].
        + apply vval_subv; [eapply vval_keeps; [exact Hx|exact Hk0|exact Dxy]|lia].
        + apply vval_subv; [exact Hy0|lia].
        + cbn; lia.
        + cbn; lia.
        + apply (subv_disj x); [lia|exact Dr].
        + apply disj_subv; [lia|]. apply (subv_disj x); [lia|exact Dxy].
        + exact Rr.
        + intros b Hb. apply Rx. eapply inv_subv; [|exact Hb]. lia.
        + intros b Hb. apply Wy. eapply inv_subv; [|exact Hb]. lia.
        + intros m' Hy' Hk'. apply HQ'; [|exact Hk']. eapply vval_ext; [exact Hy'|]. intros p Hp; cbv beta. cbn in Hp.
          rewrite (proj2 (Nat.ltb_lt _ _)) by lia. rewrite H2. reflexivity.
      - intros g' m0 Q' Hy0 Hk0 HQ'. eapply wp_addevaltrans_amatrix_avector.
        + eapply mval_keeps; [exact H3|exact Hk0|exact Dr].
        + apply vval_subv; [eapply vval_keeps; [exact Hx|exact Hk0|exact Dxy]|lia].
        + apply vval_subv; [exact Hy0|lia].
        + cbn; lia.
        + cbn; lia.
        + apply (subv_disj x); [lia|exact Dr].
        + apply disj_subv; [lia|]. apply (subv_disj x); [lia|exact Dxy].
        + exact Rr.
        + intros b Hb. apply Rx. eapply inv_subv; [|exact Hb]. lia.
        + intros b Hb. apply Wy. eapply inv_subv; [|exact Hb]. lia.
        + intros m' Hy' Hk'. apply HQ'; [|exact Hk']. eapply vval_ext; [exact Hy'|]. intros p Hp; cbv beta. cbn in Hp.
          rewrite (proj2 (Nat.ltb_lt _ _)) by lia. rewrite H1. reflexivity. }
    cbv beta. intros _ m1 Hw1. cbn [uninit_avector vown subv bind].
    apply wp_bind. apply wp_init_sub_avector; [lia|]. apply wp_bind. apply wp_init_sub_avector; [lia|]. apply wp_bind.
    eapply wp_conseq; [exact Hw1|]. intros [] m2 HQ2. cbn [uninit_avector vown subv bind wp]. exact HQ2.
  - cbv zeta.
    assert (Hsub : forall k s, nth_error l k = Some s -> forall a, inh s a -> inh (HM rc cc None None (Some l) rsons csons ds) a).
    { intros k s Hs a Ha. eapply inh_son; [reflexivity|eapply nth_error_In; exact Hs|exact Ha]. }
    apply wp_bind.
    set (low := fun j i p q => inb roff (csz rc) p && inb coff (csz cc) q &&
                 ((q <? coff + nsum j ws) || ((q <? coff + nsum (S j) ws) && (p <? roff + nsum i hs)))).
    apply (wp_forS (fun j coff1 m1 => coff1 = coff + nsum j ws /\
      vval m1 y (fun p => g p + alpha * msk n (fun q => low j 0%nat p q || low j 0%nat q p) (fun q => herm_of D p q * f q))%F /\ keeps (inv y) m m1)).
    + split; [cbn; lia|]. split; [|apply keeps_refl]. eapply vval_ext; [exact Hy|]. intros p Hp; cbv beta.
      rewrite msk_none; [ring|]. intros q Hq. unfold low. cbn [nsum]. bol0.
    + intros j coff1 m1 [_ Hj] (-> & Hy1 & Hk1). cbn in Hj. pose proof (nsum_in ws j csons Hj) as Bj.
      apply wp_bind.
      apply (wp_forS (fun i roff1 m2 => roff1 = roff + nsum i hs /\
        vval m2 y (fun p => g p + alpha * msk n (fun q => low j i p q || low j i q p) (fun q => herm_of D p q * f q))%F /\ keeps (inv y) m m2)).
      * split; [cbn; lia|]. split; [exact Hy1|exact Hk1].
      * intros i roff1 m2 [_ Hi] (-> & Hy2 & Hk2). cbn in Hi.
        destruct (nth_ex l i) as [si Hsi]; [rewrite P3; pose proof (pos_lt i 0 rsons csons Hi P2); lia|].
        destruct (P6 i 0 si Hi P2) as [Eri _]; [rewrite Nat.mul_0_l, Nat.add_0_r; exact Hsi|].
        destruct (nth_ex l (i + j * rsons)) as [s Hs]; [rewrite P3; apply pos_lt; assumption|].
        destruct (P6 i j s Hi Hj Hs) as [Er Ec]. pose proof (P7 i j s Hi Hj Hs) as Hsr.
        pose proof (nsum_in hs i rsons Hi) as Bi.
        rewrite (sget_map _ _ _ _ Hs). cbn [bind snd]. apply wp_bind.
        assert (Dhy' : disj (inh s) (inv y)) by (intros a Ha; apply Dhy; eapply Hsub; eauto).
        eapply (IH l s eq_refl (nth_error_In _ _ Hs)) with (D := D) (n := n); [| |exact Hy2|exact Ex|exact Ey|lia|lia|exact Dxy|exact Dhy'| |exact Rx|exact Wy|].
        -- eapply hrep_keeps; [|exact Hk2|exact Dhy']. eapply hrep_ext; [exact Hsr|]. intros p q Hp Hq; cbv beta. f_equal; lia.
        -- eapply vval_keeps; [exact Hx|exact Hk2|exact Dxy].
        -- intros a Ha. apply Rh. eapply Hsub; eauto.
        -- intros m3 Hy3 Hk3. rewrite (sget_map _ _ _ _ Hsi). cbn [bind fst wp]. rewrite Eri. cbn [nsum].
           split; [lia|]. split; [|eapply keeps_trans; eassumption].
           eapply vval_ext; [exact Hy3|]. intros p Hp; cbv beta. rewrite Er, Ec.
           rewrite (msk_split n (fun q => low j (S i) p q || low j (S i) q p) (fun q => low j i p q || low j i q p)
                      (boxes (roff + nsum i hs) (hs i) (coff + nsum j ws) (ws j) p)); [ring| |].
           ++ intros q Hq. unfold low, boxes. cbn [nsum]. bol.
           ++ intros q Hq. unfold low, boxes. cbn [nsum]. bol0.
      * intros roff1 m2 (-> & Hy2 & Hk2). cbn [Nat.add] in *. rewrite P4. wstep.
        destruct (nth_ex l (j * rsons)) as [sj Hsj]; [rewrite P3; pose proof (pos_lt 0 j rsons csons P1 Hj); lia|].
        destruct (P6 0 j sj P1 Hj Hsj) as [_ Ecj].
        rewrite (sget_map _ _ _ _ Hsj). cbn [bind fst wp]. rewrite Ecj. cbn [nsum]. split; [lia|]. split; [|exact Hk2].
        eapply vval_ext; [exact Hy2|]. intros p Hp; cbv beta. f_equal. f_equal. apply msk_ext; [|reflexivity].
        intros q Hq. unfold low. cbn [nsum]. rewrite P4. bol.
    + intros coff1 m1 (-> & Hy1 & Hk1). cbn [Nat.add] in *. rewrite P5. wstep. apply HQ; [|exact Hk1].
      eapply vval_ext; [exact Hy1|]. intros p Hp; cbv beta. f_equal. f_equal. apply msk_ext; [|reflexivity].
      intros q Hq. unfold low, boxes. cbn [nsum]. rewrite P5. bol.
Qed.

(** A full diagonal block. *)
Lemma wp_diag_leaf R W alpha x y a k D f g m (Q : unit -> mem K -> Prop) :
  (forall p q, q <= p < k -> get m (ma a p q) = Val (D p q)) -> mrows a = k -> mcols a = k ->
  vval m x f -> vval m y g -> vdim x = k -> vdim y = k ->
  disj (inv x) (inv y) -> disj (inm a) (inv y) -> rdok R W (inm a) -> rdok R W (inv x) -> wrok W (inv y) ->
  (forall m', vval m' y (fun p => g p + alpha * sum k (fun q => herm_of D p q * f q))%F -> keeps (inv y) m m' -> Q tt m') ->
  wp R W (for_ 0 k (fun j =>
            yj <- vload y j ;; c <- mload a j j ;; xj <- vload x j ;;
            vstore y j (yj + alpha * c * xj)%F ;;;
            for_ (j + 1) (k - (j + 1)) (fun i =>
              yi <- vload y i ;; c <- mload a i j ;; xj <- vload x j ;;
              vstore y i (yi + alpha * c * xj)%F ;;;
              yj <- vload y j ;; c <- mload a i j ;; xi <- vload x i ;;
              vstore y j (yj + alpha * fconj c * xi)%F))) m Q.
Proof.
  intros Ha Er Ec Hx Hy Ex Ey Dxy Da Ra Rx Wy HQ.
  assert (Hld : forall m1 i j (Q' : K -> mem K -> Prop), keeps (inv y) m m1 -> j <= i < k -> Q' (D i j) m1 -> wp R W (mload a i j) m1 Q').
  { intros m1 i j Q' Hk Hij HQ'. assert (inm a (ma a i j)) by (apply inm_ma; lia).
    apply (wp_pload R W (ma a i j) m1 (D i j)); [|apply Ra; assumption|exact HQ'].
    rewrite (proj2 Hk); [apply Ha; exact Hij|]. intros Hb. eapply Da; eauto. }
  assert (Hxl : forall m1 i (Q' : K -> mem K -> Prop), keeps (inv y) m m1 -> i < k -> Q' (f i) m1 -> wp R W (vload x i) m1 Q').
  { intros m1 i Q' Hk Hi HQ'. eapply wp_vload; [eapply vval_keeps; [exact Hx|exact Hk|exact Dxy]|lia|exact Rx|exact HQ']. }
  assert (Hst : forall m1 g1 i v (Q' : unit -> mem K -> Prop), vval m1 y g1 -> keeps (inv y) m m1 -> i < k ->
            (forall m2, vval m2 y (fun p => if p =? i then v else g1 p) -> keeps (inv y) m m2 -> Q' tt m2) -> wp R W (vstore y i v) m1 Q').
  { intros m1 g1 i v Q' Hg Hk Hi HQ'. apply wp_vstore; [eapply vval_alloc; exact Hg|lia|exact Wy|].
    apply HQ'; [|apply keeps_upd_r; [exact Hk|apply inv_va; lia]].
    eapply vval_fupd_step; [exact Hg|apply wrote_upd; [apply (vval_alloc _ _ _ Hg); lia|reflexivity]|]. reflexivity. }
  set (H := fun p q => (herm_of D p q * f q)%F).
  apply (wp_for (fun j m1 => vval m1 y (fun p => g p + alpha * msk k (fun q => (p <? j) || (q <? j)) (H p))%F /\ keeps (inv y) m m1)).
  - split; [|apply keeps_refl]. eapply vval_ext; [exact Hy|]. intros p Hp; cbv beta. rewrite msk_none; [ring|]. reflexivity.
  - intros j m1 [_ Hj] (Hy1 & Hk1). cbn in Hj.
    apply wp_bind. eapply wp_vload; [exact Hy1|lia|apply rdok_w, Wy|].
    apply wp_bind. apply Hld; [exact Hk1|lia|]. apply wp_bind. apply Hxl; [exact Hk1|exact Hj|].
    apply wp_bind. eapply Hst; [exact Hy1|exact Hk1|exact Hj|]. intros m2 Hy2 Hk2.
    set (T := fun j i p q => (p <? j) || (q <? j) || ((p =? j) && (q <? i)) || ((q =? j) && (p <? i))).
    apply (wp_for (fun i m3 => vval m3 y (fun p => g p + alpha * msk k (T j i p) (H p))%F /\ keeps (inv y) m m3)).
    + split; [|exact Hk2]. eapply vval_ext; [exact Hy2|]. intros p Hp; cbv beta. destruct (Nat.eqb_spec p j) as [->|Hne].
      * rewrite (msk_add k (fun q => (j <? j) || (q <? j)) (T j (j + 1) j) (H j) j); [|exact Hj| |].
        -- unfold H, herm_of. rewrite Nat.leb_refl. ring.
        -- intros q Hq. unfold T. bol.
        -- bol0.
      * f_equal. f_equal. apply msk_ext; [|reflexivity]. intros q Hq. unfold T. bol.
    + intros i m3 Hi (Hy3 & Hk3). assert (Hij : j < i < k) by lia. clear Hi.
      apply wp_bind. eapply wp_vload; [exact Hy3|lia|apply rdok_w, Wy|].
      apply wp_bind. apply Hld; [exact Hk3|lia|]. apply wp_bind. apply Hxl; [exact Hk3|exact Hj|].
      apply wp_bind. eapply Hst; [exact Hy3|exact Hk3|lia|]. intros m4 Hy4 Hk4.
      apply wp_bind. eapply wp_vload; [exact Hy4|lia|apply rdok_w, Wy|].
      apply wp_bind. apply Hld; [exact Hk4|lia|]. apply wp_bind. apply Hxl; [exact Hk4|lia|].
      eapply Hst; [exact Hy4|exact Hk4|lia|]. intros m5 Hy5 Hk5. split; [|exact Hk5].
      eapply vval_ext; [exact Hy5|]. intros p Hp; cbv beta.
      rewrite (proj2 (Nat.eqb_neq j i)) by lia.
      destruct (Nat.eqb_spec p j) as [->|Hne]; [|destruct (Nat.eqb_spec p i) as [->|Hne2]].
      * rewrite (msk_add k (T j i j) (T j (S i) j) (H j) i); [|lia| |].
        -- unfold H, herm_of. rewrite (proj2 (Nat.leb_gt i j)) by lia. ring.
        -- intros q Hq. unfold T. bol.
        -- unfold T. bol0.
      * rewrite (msk_add k (T j i i) (T j (S i) i) (H i) j); [|lia| |].
        -- unfold H, herm_of. rewrite (proj2 (Nat.leb_le j i)) by lia. ring.
        -- intros q Hq. unfold T. bol.
        -- unfold T. bol0.
      * f_equal. f_equal. apply msk_ext; [|reflexivity]. intros q Hq. unfold T. bol.
    + intros m3 (Hy3 & Hk3). split; [|exact Hk3]. eapply vval_ext; [exact Hy3|]. intros p Hp; cbv beta. f_equal. f_equal.
      apply msk_ext; [|reflexivity]. intros q Hq. unfold T. bol.
  - intros m1 (Hy1 & Hk1). apply HQ; [|exact Hk1]. eapply vval_ext; [exact Hy1|]. intros p Hp; cbv beta. f_equal. f_equal.
    apply msk_all. intros q Hq. cbn. apply orb_true_iff. right. apply Nat.ltb_lt. exact Hq.
Qed.

Lemma hlow_keeps (W : addr -> Prop) m m' h D : hlow m h D -> keeps W m m' -> disj (inh h) W -> hlow m' h D.
Proof.
  intros H Hk. induction H as [rc f ds D H1 H2 H3|rc l n ds hs D P1 P2 P3 P4 P5 P6 P7 IH P8]; intros Hd.
  - constructor; auto. intros p q Hpq. rewrite (proj2 Hk); [apply H3; exact Hpq|]. intros Hw. eapply Hd; [|exact Hw]. eapply inh_f; [reflexivity|].
    apply inm_ma; lia.
  - econstructor; eauto.
    + intros j s Hj Hs. eapply IH; eauto. intros a Ha. apply Hd. eapply inh_son; [reflexivity|eapply nth_error_In; exact Hs|exact Ha].
    + intros i j s Hij Hs. eapply hrep_keeps; [eapply P8; eassumption|exact Hk|]. intros a Ha. apply Hd.
      eapply inh_son; [reflexivity|eapply nth_error_In; exact Hs|exact Ha].
Qed.
Lemma hlow_ext m h : forall D D', hlow m h D -> (forall i j, i < hrows h -> j < hrows h -> D' i j = D i j) -> hlow m h D'.
Proof.
  intros D D' H. revert D'. induction H as [rc f ds D H1 H2 H3|rc l n ds hs D P1 P2 P3 P4 P5 P6 P7 IH P8]; intros D' E; unfold hrows in E; cbn in E.
  - constructor; auto. intros p q Hpq. rewrite E by lia. apply H3. exact Hpq.
  - econstructor; eauto.
    + intros j s Hj Hs. eapply IH; eauto. destruct (P6 j j s Hj Hj Hs) as [Er Ec]. pose proof (nsum_in hs j n Hj).
      intros p q Hp Hq. apply E; lia.
    + intros i j s Hij Hs. eapply hrep_ext; [eapply P8; eassumption|]. destruct (P6 i j s) as [Er Ec]; [lia|lia|exact Hs|].
      pose proof (nsum_in hs j n). pose proof (nsum_in hs i n). intros p q Hp Hq. apply E; lia.
Qed.

Lemma wp_diag h : forall R W alpha x y D f g m n off (Q : unit -> mem K -> Prop),
  hlow m h (fun p q => D (off + p) (off + q)) -> vval m x f -> vval m y g -> vdim x = n -> vdim y = n -> off + hrows h <= n ->
  disj (inv x) (inv y) -> disj (inh h) (inv y) -> rdok R W (inh h) -> rdok R W (inv x) -> wrok W (inv y) ->
  (forall m', vval m' y (fun p => g p + alpha * msk n (fun q => inb off (hrows h) p && inb off (hrows h) q) (fun q => herm_of D p q * f q))%F ->
     keeps (inv y) m m' -> Q tt m') ->
  wp R W (addevalsymm_diag alpha h off x y) m Q.
Proof.
  induction h as [h IH] using hm_rect'. intros R W alpha x y D f g m n off Q Hr Hx Hy Ex Ey B Dxy Dhy Rh Rx Wy HQ.
  remember (fun p q => D (off + p) (off + q)) as D' eqn:ED.
  destruct Hr as [rc a ds D' H1 H2 H3|rc l sons ds hs D' P1 P2 P3 P4 P5 P6 P7 P8];
    cbn [addevalsymm_diag]; unfold hrows in B, HQ; cbn [hm_rc] in B, HQ; subst D'; rewrite cp_eqb_refl; cbn [passert bind].
  - wstep. wstep. cbv zeta. apply wp_bind. apply wp_init_sub_avector; [lia|]. apply wp_bind. apply wp_init_sub_avector; [lia|]. apply wp_bind.
    eapply (wp_diag_leaf R W alpha (subv x off (csz rc)) (subv y off (csz rc)) a (csz rc) (fun p q => D (off + p) (off + q))
              (fun p => f (off + p)) (fun p => g (off + p)) m); [exact H3|exact H1|exact H2| | |reflexivity|reflexivity| | | | | |].
    + apply vval_subv; [exact Hx|lia].
    + apply vval_subv; [exact Hy|lia].
    + apply disj_subv; [lia|]. apply (subv_disj x); [lia|exact Dxy].
    + apply (subv_disj x); [lia|]. intros b Hb. apply Dhy. eapply inh_f; [reflexivity|exact Hb].
    + intros b Hb. apply Rh. eapply inh_f; [reflexivity|exact Hb].
    + intros b Hb. apply Rx. eapply inv_subv; [|exact Hb]. lia.
    + intros b Hb. apply Wy. eapply inv_subv; [|exact Hb]. lia.
    + intros m1 Hy1 Hk1. cbn [uninit_avector vown subv bind wp]. apply HQ; [|eapply keeps_subv; [|exact Hk1]; lia].
      eapply vval_ext; [eapply vval_subv_back; [exact Hy| |exact Hy1|exact Hk1]; lia|]. intros p Hp; cbv beta.
      fold (inb off (csz rc) p). destruct (inb off (csz rc) p) eqn:E.
      * unfold inb in E. apply andb_prop in E. destruct E as [E1 E2]. apply Nat.leb_le in E1. apply Nat.ltb_lt in E2.
        rewrite (msk_box n _ off (csz rc)) by (reflexivity || lia). replace (off + (p - off)) with p by lia. f_equal. f_equal. apply sum_ext. intros j Hj.
        f_equal. unfold herm_of. replace (off + (p - off)) with p by lia.
        destruct (Nat.leb_spec j (p - off)), (Nat.leb_spec (off + j) p); try lia; reflexivity.
      * rewrite msk_none by reflexivity. ring.
  - rewrite Nat.eqb_refl. cbn [passert bind]. cbv zeta.
    assert (Hsub : forall k s, nth_error l k = Some s -> forall a, inh s a -> inh (HM rc rc None None (Some l) sons sons ds) a).
    { intros k s Hs a Ha. eapply inh_son; [reflexivity|eapply nth_error_In; exact Hs|exact Ha]. }
    assert (Hnth : forall i j, i < sons -> j < sons -> exists s, nth_error l (i + j * sons) = Some s).
    { intros i j Hi Hj. apply nth_ex. rewrite P2. apply pos_lt; assumption. }
    set (T := fun j i p q => inb off (csz rc) p && inb off (csz rc) q &&
       ((p <? off + nsum j hs) || (q <? off + nsum j hs) || ((p <? off + nsum (S j) hs) && (q <? off + nsum i hs))
        || ((q <? off + nsum (S j) hs) && (p <? off + nsum i hs)))).
    apply wp_bind.
    apply (wp_forS (fun j coff m1 => coff = off + nsum j hs /\
      vval m1 y (fun p => g p + alpha * msk n (T j 0%nat p) (fun q => herm_of D p q * f q))%F /\ keeps (inv y) m m1)).
    + split; [cbn; lia|]. split; [|apply keeps_refl]. eapply vval_ext; [exact Hy|]. intros p Hp; cbv beta.
      rewrite msk_none; [ring|]. intros q Hq. unfold T. cbn [nsum]. bol0.
    + intros j coff m1 [_ Hj] (-> & Hy1 & Hk1). cbn in Hj. pose proof (nsum_in hs j sons Hj) as Bj.
      destruct (Hnth j j Hj Hj) as [sd Hsd]. destruct (P6 j j sd Hj Hj Hsd) as [Erd Ecd].
      rewrite (sget_map _ _ _ _ Hsd). cbn [bind snd]. apply wp_bind.
      assert (Dhd : disj (inh sd) (inv y)) by (intros a Ha; apply Dhy; eapply Hsub; eauto).
      eapply (IH l sd eq_refl (nth_error_In _ _ Hsd)) with (D := D) (n := n); [| |exact Hy1|exact Ex|exact Ey|lia|exact Dxy|exact Dhd| |exact Rx|exact Wy|].
      { eapply hlow_keeps; [|exact Hk1|exact Dhd]. eapply hlow_ext; [eapply P7; eassumption|]. intros p q Hp Hq; cbv beta. f_equal; lia. }
      { eapply vval_keeps; [exact Hx|exact Hk1|exact Dxy]. }
      { intros a Ha. apply Rh. eapply Hsub; eauto. }
      intros m2 Hy2 Hk2. assert (Hk2' : keeps (inv y) m m2) by (eapply keeps_trans; eassumption).
      destruct (nth_error (c_sons (cp_c rc)) j) as [t|] eqn:Et.
      2:{ apply nth_error_None in Et. unfold cp_sons in P4. lia. }
      unfold cp_son. rewrite Et. cbn [lift bind]. unfold csz at 1. cbn [cp_c]. rewrite (P5 j t Et).
      apply wp_bind.
      apply (wp_forS (fun i roff m3 => roff = off + nsum i hs /\
        vval m3 y (fun p => g p + alpha * msk n (T j i p) (fun q => herm_of D p q * f q))%F /\ keeps (inv y) m m3)).
      * split; [rewrite Nat.add_1_r; cbn [nsum]; lia|]. split; [|exact Hk2']. eapply vval_ext; [exact Hy2|]. intros p Hp; cbv beta.
        rewrite (msk_split n (T j (j + 1) p) (T j 0 p) (fun q => inb (off + nsum j hs) (hrows sd) p && inb (off + nsum j hs) (hrows sd) q)); [ring| |].
        -- intros q Hq. unfold T. rewrite Nat.add_1_r, Erd. cbn [nsum]. bol.
        -- intros q Hq. unfold T. rewrite Erd. cbn [nsum]. bol0.
      * intros i roff m3 Hi (-> & Hy3 & Hk3). assert (Hij : j < i < sons) by lia. clear Hi.
        destruct (Hnth i j) as [s Hs]; [lia|lia|]. destruct (P6 i j s) as [Er Ec]; [lia|lia|exact Hs|].
        destruct (Hnth i 0) as [si Hsi]; [lia|lia|]. destruct (P6 i 0 si) as [Eri _]; [lia|lia|exact Hsi|].
        assert (Bi : nsum i hs + hs i <= nsum sons hs) by (apply nsum_in; lia).
        assert (Bji : nsum j hs + hs j <= nsum i hs) by (apply nsum_in; lia).
        rewrite (sget_map _ _ _ _ Hs). cbn [bind fst]. apply wp_bind.
        assert (Dhs : disj (inh s) (inv y)) by (intros a Ha; apply Dhy; exact (Hsub _ s Hs a Ha)).
        eapply (wp_offdiag s) with (D := D) (n := n); [| |exact Hy3|exact Ex|exact Ey|lia|lia|exact Dxy|exact Dhs| |exact Rx|exact Wy|].
        { eapply hrep_keeps; [|exact Hk3|exact Dhs]. eapply hrep_ext; [eapply P8; [|exact Hs]; exact Hij|]. intros p q Hp Hq; cbv beta. f_equal; lia. }
        { eapply vval_keeps; [exact Hx|exact Hk3|exact Dxy]. }
        { intros a Ha. apply Rh. exact (Hsub _ s Hs a Ha). }
        intros m4 Hy4 Hk4. rewrite Nat.mul_0_l, Nat.add_0_r in Hsi. rewrite (sget_map _ _ _ _ Hsi). cbn [bind fst wp]. rewrite Eri.
        split; [cbn [nsum]; lia|]. split; [|eapply keeps_trans; eassumption].
        eapply vval_ext; [exact Hy4|]. intros p Hp; cbv beta. rewrite Er, Ec.
        rewrite (msk_split n (T j (S i) p) (T j i p) (boxes (off + nsum i hs) (hs i) (off + nsum j hs) (hs j) p)); [ring| |].
        -- intros q Hq. unfold T, boxes. cbn [nsum]. bol.
        -- intros q Hq. unfold T, boxes. cbn [nsum]. bol0.
      * intros roff m3 (-> & Hy3 & Hk3). replace (j + 1 + (sons - (j + 1))) with sons in * by lia. rewrite P3. wstep.
        destruct (Hnth 0 j) as [sj Hsj]; [lia|exact Hj|]. destruct (P6 0 j sj) as [_ Ecj]; [lia|exact Hj|exact Hsj|]. cbn [Nat.add] in Hsj.
        rewrite (sget_map _ _ _ _ Hsj). cbn [bind fst wp]. rewrite Ecj. split; [cbn [nsum]; lia|]. split; [|exact Hk3].
        eapply vval_ext; [exact Hy3|]. intros p Hp; cbv beta. f_equal. f_equal. apply msk_ext; [|reflexivity].
        intros q Hq. unfold T. cbn [nsum]. rewrite P3. bol.
    + intros coff m1 (-> & Hy1 & Hk1). cbn [Nat.add] in *. rewrite P3. wstep. apply HQ; [|exact Hk1].
      eapply vval_ext; [exact Hy1|]. intros p Hp; cbv beta. f_equal. f_equal. apply msk_ext; [|reflexivity].
      intros q Hq. unfold T. cbn [nsum]. rewrite P3. bol.
Qed.

Lemma hlow_rc m h D : hlow m h D -> hm_rc h = hm_cc h.
Proof. intros []; reflexivity. Qed.

Lemma wp_fastaddevalsymm h R W alpha x y D f g m (Q : unit -> mem K -> Prop) :
  hlow m h D -> vval m x f -> vval m y g -> vdim x = hrows h -> vdim y = hrows h ->
  disj (inv x) (inv y) -> disj (inh h) (inv y) -> rdok R W (inh h) -> rdok R W (inv x) -> wrok W (inv y) ->
  (forall m', vval m' y (fun p => g p + alpha * mvec (hrows h) (herm_of D) f p)%F -> keeps (inv y) m m' -> Q tt m') ->
  wp R W (fastaddevalsymm_hmatrix_avector alpha h x y) m Q.
Proof.
  intros Hr Hx Hy Ex Ey Dxy Dhy Rh Rx Wy HQ. unfold fastaddevalsymm_hmatrix_avector. rewrite <- (hlow_rc _ _ _ Hr), cp_eqb_refl. cbn [passert bind].
  eapply (wp_diag h) with (D := D) (n := hrows h); eauto.
  intros m' Hy' Hk'. apply HQ; [|exact Hk']. eapply vval_ext; [exact Hy'|]. intros p Hp; cbv beta. f_equal. f_equal. unfold mvec.
  apply msk_all. intros q Hq. rewrite Ey in Hp. bolr. lia.
Qed.

Lemma wp_addevalsymm_h idx h R W alpha x y A f g m (Q : unit -> mem K -> Prop) :
  hlowi m idx h A -> vval m x f -> vval m y g -> vdim x = hrows h -> vdim y = hrows h ->
  vblk x < next m -> vblk y < next m -> (forall a, inh h a -> fst a < next m) ->
  disj (inv x) (inv y) -> rdok R W (inh h) -> rdok R W (inv x) -> wrok W (inv y) ->
  (forall m', vval m' y (fun i => g i + alpha * mvec (hrows h) A f i)%F -> keeps (inv y) m m' -> Q tt m') ->
  wp R W (addevalsymm_hmatrix_avector idx alpha h x y) m Q.
Proof.
  intros (gp & D & Pg & Hr & HA) Hx Hy Ex Ey Bx By BF Dxy RF Rx Wy HQ. unfold addevalsymm_hmatrix_avector.
  rewrite <- (hlow_rc _ _ _ Hr), cp_eqb_refl. cbn [passert bind].
  assert (Ec : hcols h = hrows h) by (unfold hcols, hrows; rewrite (hlow_rc _ _ _ Hr); reflexivity).
  wstep. wstep. cbv zeta.
  eapply (wp_permuted' L R W idx (c_off (cp_c (hm_rc h))) idx (c_off (cp_c (hm_rc h))) gp gp x y (hrows h) (hrows h) A alpha (inh h)
    (fastaddevalsymm_hmatrix_avector alpha h) f g m (fun m => hlow m h D)); eauto.
  - intros m0 m' W1 H Hk Hd. eapply hlow_keeps; eauto.
  - intros R' W' xp yp f' g' m' Q' HI Hxp Hyp E1 E2 D1 D2 R1 R2 W1 HQ'. eapply wp_fastaddevalsymm; eauto.
    intros m1 Hy1 Hk1. apply HQ'; [|exact Hk1]. eapply vval_ext; [exact Hy1|]. intros p Hp; cbv beta. f_equal. f_equal. unfold mvec.
    apply sum_ext. intros q Hq. rewrite HA by lia. reflexivity.
Qed.
End HmP3.
