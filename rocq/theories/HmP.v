(** * Proofs about H-matrices (model: Hmatrix.v): matrix-vector multiplication *)
From Coq Require Import Arith Lia List Bool Ring Permutation.
From Verif Require Import Fld Ord Prog Arr View Spec Loop Cluster Block Avector AvectorP Amatrix AmatrixP AmatrixP2 Norm NormP
  Rkmatrix RkSpec RkP Hmatrix HmSpec.
Import ListNotations.

(** ** Sums of sizes *)
Lemma nsum_le h i j : i <= j -> nsum i h <= nsum j h.
Proof. induction 1; [reflexivity|]. cbn. lia. Qed.
Lemma nsum_in h i n : i < n -> nsum i h + h i <= nsum n h.
Proof. intros H. change (nsum (S i) h <= nsum n h). apply nsum_le. lia. Qed.
Lemma nsum_ext n h g : (forall i, i < n -> h i = g i) -> nsum n h = nsum n g.
Proof. induction n; intros H; [reflexivity|]. cbn. rewrite IHn, H by (intros; auto with arith). reflexivity. Qed.

Lemma sget_map {K : Type} {A B} (F : A -> B) l k s : nth_error l k = Some s -> sget (K := K) (Some (map F l)) k = Ret (F s).
Proof. intros H. unfold sget. rewrite nth_error_map, H. reflexivity. Qed.
Lemma sget_some {K : Type} {A} (l : list A) k s : nth_error l k = Some s -> sget (K := K) (Some l) k = Ret s.
Proof. intros H. unfold sget. rewrite H. reflexivity. Qed.

Lemma nth_ex {A} (l : list A) k : k < length l -> exists s, nth_error l k = Some s.
Proof. intros H. destruct (nth_error l k) eqn:E; [eauto|]. apply nth_error_None in E. lia. Qed.

Lemma pos_lt i j r c : i < r -> j < c -> i + j * r < r * c.
Proof. intros Hi Hj. assert (S j * r <= c * r) by (apply Nat.mul_le_mono_r; lia). rewrite (Nat.mul_comm r c). cbn in *. lia. Qed.

Section HmInd.
Context {G : ofops} (P : hmatrix G -> Prop).
Hypothesis step : forall h, (forall l s, hm_son h = Some l -> In s l -> P s) -> P h.
Fixpoint hm_rect' (h : hmatrix G) : P h.
Proof.
  apply step. destruct h as [rc cc r f [l|] rs cs ds]; cbn; [|discriminate].
  intros l' s E. injection E as <-. revert s. induction l as [|a l IH]; intros s [].
  - rewrite <- H. apply hm_rect'.
  - apply IH, H.
Defined.
End HmInd.

Section HmP.
Context {K : fops} {G : ofops} (L : ring_laws K).
Add Ring KringHm : (rl_ring K L).
Implicit Types (m : mem K) (R W : addr -> Prop) (h s : hmatrix G) (x y : vec) (D : nat -> nat -> K).


Lemma hrep_ext m h : forall D D', hrep m h D -> (forall i j, i < hrows h -> j < hcols h -> D' i j = D i j) -> hrep m h D'.
Proof.
  intros D D' H. revert D'. induction H as [rc cc r ds D H1 H2 H3|rc cc f ds D H1 H2 H3|rc cc l rsons csons ds hs ws D P1 P2 P3 P4 P5 P6 P7 IH];
    intros D' E.
  - constructor; auto. eapply rkrep_ext; [exact H3|]. intros i j Hi Hj. apply E; unfold hrows, hcols; cbn; lia.
  - constructor; auto. eapply mval_ext; [exact H3|]. intros i j Hi Hj. symmetry. apply E; unfold hrows, hcols; cbn; lia.
  - econstructor; eauto. intros i j s Hi Hj Hs. destruct (P6 i j s Hi Hj Hs) as (Q1 & Q2).
    eapply IH; eauto. intros p q Hp Hq. apply E; unfold hrows, hcols in *; cbn in *.
    + pose proof (nsum_in hs i rsons Hi). lia.
    + pose proof (nsum_in ws j csons Hj). lia.
Qed.

Lemma hrep_keeps (W : addr -> Prop) m m' h D : hrep m h D -> keeps W m m' -> disj (inh h) W -> hrep m' h D.
Proof.
  intros H Hk. induction H as [rc cc r ds D H1 H2 H3|rc cc f ds D H1 H2 H3|rc cc l rsons csons ds hs ws D P1 P2 P3 P4 P5 P6 P7 IH]; intros Hd.
  - constructor; auto. eapply rkrep_keeps; [exact H3|exact Hk|]. intros a Ha. apply Hd. eapply inh_r; [reflexivity|exact Ha].
  - constructor; auto. eapply mval_keeps; [exact H3|exact Hk|]. intros a Ha. apply Hd. eapply inh_f; [reflexivity|exact Ha].
  - econstructor; eauto. intros i j s Hi Hj Hs. eapply IH; eauto. intros a Ha. apply Hd.
    eapply inh_son; [reflexivity|eapply nth_error_In; exact Hs|exact Ha].
Qed.

Lemma subv_disj x y off n (P : addr -> Prop) : off + n <= vdim y -> disj P (inv y) -> disj P (inv (subv y off n)).
Proof. intros Ho H a Ha Hb. apply (H a Ha). eapply inv_subv; eauto. Qed.
Lemma disj_subv y off n (P : addr -> Prop) : off + n <= vdim y -> disj (inv y) P -> disj (inv (subv y off n)) P.
Proof. intros Ho H a Ha Hb. apply (H a); [|exact Hb]. eapply inv_subv; eauto. Qed.

(** A part of a product: the first [a + b] columns. *)
Lemma mvec_app a b D (f : nat -> K) p : mvec (a + b) D f p = (mvec a D f p + sum b (fun q => D p (a + q)%nat * f (a + q)%nat))%F.
Proof. unfold mvec. apply (sum_app L). Qed.

Lemma wp_fastaddeval h : forall R W alpha x y D f g m (Q : unit -> mem K -> Prop),
  hrep m h D -> vval m x f -> vval m y g -> vdim x = hcols h -> vdim y = hrows h ->
  disj (inv x) (inv y) -> disj (inh h) (inv y) -> rdok R W (inh h) -> rdok R W (inv x) -> wrok W (inv y) ->
  (forall m', vval m' y (fun i => g i + alpha * mvec (hcols h) D f i)%F -> keeps (inv y) m m' -> Q tt m') ->
  wp R W (fastaddeval_hmatrix_avector alpha h x y) m Q.
Proof.
  induction h as [h IH] using hm_rect'. intros R W alpha x y D f g m Q Hr Hx Hy Ex Ey Dxy Dhy Rh Rx Wy HQ.
  destruct Hr as [rc cc r ds D H1 H2 H3|rc cc a ds D H1 H2 H3|rc cc l rsons csons ds hs ws D P1 P2 P3 P4 P5 P6 P7];
    cbn [fastaddeval_hmatrix_avector]; unfold hcols, hrows in Ex, Ey; cbn [hm_rc hm_cc] in Ex, Ey.
  - wstep. wstep. eapply (wp_addeval_rk L); eauto; try lia.
    + intros a Ha. apply Dhy. eapply inh_r; [reflexivity|exact Ha].
    + intros a Ha. apply Rh. eapply inh_r; [reflexivity|exact Ha].
    + intros m' Hy' Hk'. apply HQ; [|exact Hk']. rewrite Ex in Hy'. exact Hy'.
  - wstep. wstep. eapply wp_mvm_amatrix_avector; [exact H3|exact Hx|exact Hy|lia|lia| |exact Dxy| |exact Rx|exact Wy|].
    + intros b Hb. apply Dhy. eapply inh_f; [reflexivity|exact Hb].
    + intros b Hb. apply Rh. eapply inh_f; [reflexivity|exact Hb].
    + intros m' Hy' Hk'. apply HQ; [|exact Hk']. eapply vval_ext; [exact Hy'|]. intros i Hi; cbv beta.
      destruct (Nat.ltb_spec i (mrows a)); [|lia]. unfold mvec, hcols. cbn [hm_cc tr]. rewrite H2. reflexivity.
  - wstep. wstep. cbv zeta.
    assert (Hsub : forall k s, nth_error l k = Some s -> forall a, inh s a -> inh (HM rc cc None None (Some l) rsons csons ds) a).
    { intros k s Hs a Ha. eapply inh_son; [reflexivity|eapply nth_error_In; exact Hs|exact Ha]. }
    apply wp_bind.
    apply (wp_forS (fun j xoff m1 => xoff = nsum j ws /\
      vval m1 y (fun p => g p + alpha * mvec (nsum j ws) D f p)%F /\ keeps (inv y) m m1)).
    + split; [reflexivity|]. split; [|apply keeps_refl]. eapply vval_ext; [exact Hy|]. intros p Hp; cbv beta. cbn [nsum]. unfold mvec. cbn [sum]. ring.
    + intros j xoff m1 [_ Hj] (-> & Hy1 & Hk1). cbn in Hj.
      destruct (nth_ex l (j * rsons)) as [sj Hsj]; [rewrite P3; pose proof (pos_lt 0 j rsons csons P1 Hj); lia|].
      destruct (P6 0 j sj P1 Hj Hsj) as [_ Ecj].
      rewrite (sget_map _ _ _ _ Hsj). cbn [bind fst]. rewrite Ecj.
      pose proof (nsum_in ws j csons Hj) as Bj.
      apply wp_bind. apply wp_init_sub_avector; [lia|].
      apply wp_bind.
      apply (wp_forS (fun i yoff m2 => yoff = nsum i hs /\
        vval m2 y (fun p => g p + alpha * mvec (if p <? nsum i hs then nsum (S j) ws else nsum j ws) D f p)%F /\ keeps (inv y) m m2)).
      * split; [reflexivity|]. split; [|exact Hk1]. eapply vval_ext; [exact Hy1|]. intros p Hp; cbv beta. reflexivity.
      * intros i yoff m2 [_ Hi] (-> & Hy2 & Hk2). cbn in Hi.
        destruct (nth_ex l i) as [si Hsi]; [rewrite P3; pose proof (pos_lt i 0 rsons csons Hi P2); lia|].
        destruct (P6 i 0 si Hi P2) as [Eri _]; [rewrite Nat.mul_0_l, Nat.add_0_r; exact Hsi|].
        destruct (nth_ex l (i + j * rsons)) as [s Hs]; [rewrite P3; apply pos_lt; assumption|].
        destruct (P6 i j s Hi Hj Hs) as [Er Ec]. pose proof (P7 i j s Hi Hj Hs) as Hsr.
        pose proof (nsum_in hs i rsons Hi) as Bi.
        rewrite (sget_map _ _ _ _ Hsi). cbn [bind fst]. rewrite Eri.
        apply wp_bind. apply wp_init_sub_avector; [lia|].
        rewrite (sget_map _ _ _ _ Hs). cbn [bind snd]. apply wp_bind.
        assert (Dhy' : disj (inh s) (inv y)) by (intros a Ha; apply Dhy; eapply Hsub; eauto).
        eapply (IH l s eq_refl (nth_error_In _ _ Hs)) with (x := subv x (nsum j ws) (ws j)) (y := subv y (nsum i hs) (hs i)).
        -- eapply hrep_keeps; [exact Hsr|exact Hk2|exact Dhy'].
        -- apply vval_subv; [|lia]. eapply vval_keeps; [exact Hx|exact Hk2|exact Dxy].
        -- apply vval_subv; [exact Hy2|lia].
        -- cbn. lia.
        -- cbn. lia.
        -- apply disj_subv; [lia|]. apply (subv_disj x); [lia|exact Dxy].
        -- apply (subv_disj x); [lia|exact Dhy'].
        -- intros a Ha. apply Rh. eapply Hsub; eauto.
        -- intros a Ha. apply Rx. eapply inv_subv; [|exact Ha]. lia.
        -- intros a Ha. apply Wy. eapply inv_subv; [|exact Ha]. lia.
        -- intros m3 Hy3 Hk3. cbn [uninit_avector vown subv bind wp].
           split; [reflexivity|]. split; [|eapply keeps_trans; [exact Hk2|eapply keeps_subv; [|exact Hk3]; lia]].
           eapply vval_ext; [eapply vval_subv_back; [exact Hy2| |exact Hy3|exact Hk3]; lia|].
           intros p Hp; cbv beta. cbn [nsum].
           destruct (Nat.leb_spec (nsum i hs) p) as [Hlo|Hlo]; cbn [andb].
           ++ destruct (Nat.ltb_spec p (nsum i hs + hs i)) as [Hhi|Hhi].
              ** destruct (Nat.ltb_spec (nsum i hs + (p - nsum i hs)) (nsum i hs)); [lia|].
                 rewrite mvec_app. unfold mvec. rewrite Ec. replace (nsum i hs + (p - nsum i hs)) with p by lia. ring.
              ** destruct (Nat.ltb_spec p (nsum i hs)); [lia|reflexivity].
           ++ destruct (Nat.ltb_spec p (nsum i hs + hs i)); [|lia]. destruct (Nat.ltb_spec p (nsum i hs)); [|lia]. reflexivity.
      * intros yoff m2 (-> & Hy2 & Hk2). cbn [Nat.add] in *. rewrite P4. wstep. cbn [uninit_avector vown subv bind wp].
        split; [reflexivity|]. split; [|exact Hk2]. eapply vval_ext; [exact Hy2|]. intros p Hp; cbv beta.
        destruct (Nat.ltb_spec p (nsum rsons hs)); [reflexivity|lia].
    + intros xoff m1 (-> & Hy1 & Hk1). cbn [Nat.add] in *. rewrite P5. wstep. apply HQ; [|exact Hk1].
      rewrite P5 in Hy1. exact Hy1.
Qed.
End HmP.
