(** * Forward transformation of matrices *)
From Coq Require Import Arith Lia List Bool Ring.
From Verif Require Import Fld Ord Prog Arr View Loop Spec Cluster Block Avector AvectorP Amatrix AmatrixP LrP3 Hmatrix HmSpec HmP Clusterbasis CbSpec CbP CbP2 CbP3.
Import ListNotations.

(** Rows [o], ..., [o+n-1] of a matrix *)
Notation rb A o n := (subm A o n 0 (mcols A)).
Lemma rb_ma A o n i j : ma (rb A o n) i j = ma A (o + i) j.
Proof. rewrite ma_subm. reflexivity. Qed.
Lemma rb_in A o n a : o + n <= mrows A -> inm (rb A o n) a -> inm A a.
Proof. intros H. apply inm_subm; cbn; lia. Qed.
Lemma rb_notin A o n i j : mwf A -> i < mrows A -> o + n <= mrows A -> i < o \/ o + n <= i -> ~ inm (rb A o n) (ma A i j).
Proof. intros Hw Hi Ho H (i' & j' & Hi' & Hj' & E). cbn in Hi'. rewrite rb_ma in E. apply ma_inj in E; [lia|exact Hw|lia|lia]. Qed.
Lemma rb_sep A o n o' n' : mwf A -> o + n <= mrows A -> o' + n' <= mrows A -> o + n <= o' \/ o' + n' <= o -> disj (inm (rb A o n)) (inm (rb A o' n')).
Proof. intros Hw H H' Hs. apply disj_subm; [exact Hw|lia|lia|lia]. Qed.
Lemma rb_w (W : addr -> Prop) A o n : o + n <= mrows A -> wrok W (inm A) -> wrok W (inm (rb A o n)).
Proof. intros H HW a Ha. apply HW. eapply rb_in; eauto. Qed.
Lemma rb_r (R W : addr -> Prop) A o n : o + n <= mrows A -> rdok R W (inm A) -> rdok R W (inm (rb A o n)).
Proof. intros H HW a Ha. apply HW. eapply rb_in; eauto. Qed.
Lemma rb_wr (R W : addr -> Prop) A o n : o + n <= mrows A -> wrok W (inm A) -> rdok R W (inm (rb A o n)).
Proof. intros H HW a Ha. right. apply HW. eapply rb_in; eauto. Qed.
Lemma rb_disj (P : addr -> Prop) A o n : o + n <= mrows A -> disj P (inm A) -> disj P (inm (rb A o n)).
Proof. intros H HD a Ha Hb. apply (HD a Ha). eapply rb_in; eauto. Qed.
Lemma disj_rb (P : addr -> Prop) A o n : o + n <= mrows A -> disj (inm A) P -> disj (inm (rb A o n)) P.
Proof. intros H HD a Ha Hb. apply (HD a); [|exact Hb]. eapply rb_in; eauto. Qed.
Lemma rb_keeps {K} (m m' : mem K) A o n : o + n <= mrows A -> keeps (inm (rb A o n)) m m' -> keeps (inm A) m m'.
Proof. intros H. apply keeps_mono. intros a. apply rb_in, H. Qed.
Lemma rb_malloc {K} (m : mem K) A o n : malloc m A -> o + n <= mrows A -> malloc m (rb A o n).
Proof. intros H Ho. apply malloc_subm; [exact H|exact Ho|cbn; lia]. Qed.
Lemma rb_malloc_keeps {K} (m m' : mem K) A o n : mwf A -> o + n <= mrows A -> malloc m A -> malloc m' (rb A o n) -> keeps (inm (rb A o n)) m m' -> malloc m' A.
Proof.
  intros Hw Ho Ha Hv Hk i j Hi Hj. destruct (Nat.lt_ge_cases i o) as [H|H]; [rewrite (proj2 Hk) by (apply rb_notin; [exact Hw|lia..]); apply Ha; assumption|].
  destruct (Nat.lt_ge_cases i (o + n)) as [H'|H']; [|rewrite (proj2 Hk) by (apply rb_notin; [exact Hw|lia..]); apply Ha; assumption].
  specialize (Hv (i - o) j). rewrite rb_ma in Hv. replace (o + (i - o)) with i in Hv by lia. apply Hv; cbn; lia.
Qed.
Lemma mval_malloc {K} (m : mem K) A f : mval m A f -> malloc m A.
Proof. intros H i j Hi Hj. rewrite (H i j Hi Hj). discriminate. Qed.
Lemma mval_ext' {K} (m : mem K) A f g : mval m A f -> (forall i j, i < mrows A -> j < mcols A -> f i j = g i j) -> mval m A g.
Proof. intros H E i j Hi Hj. rewrite (H i j Hi Hj), (E i j Hi Hj). reflexivity. Qed.

Section P9.
Context {K : fops} {G : ofops} (L : ring_laws K).
Add Ring KringCb9 : (rl_ring K L).
Implicit Types (m : mem K) (cb c s : cbasis G) (X Y : nat -> nat -> K) (A : mat).

(** Both versions at once: [t] says whether the input is the adjoint matrix.  Part of the input that
    belongs to the rows [o], ..., [o+n-1]. *)
Definition part (t : bool) (A : mat) (o n : nat) : mat := if t then subm A 0 (mrows A) o n else rb A o n.
Definition trows (t : bool) (A : mat) : nat := if t then mcols A else mrows A.
Definition tcols (t : bool) (A : mat) : nat := if t then mrows A else mcols A.
(** The input holds [X] resp. its adjoint *)
Definition tval m (t : bool) (A : mat) X : Prop := exists f, mval m A f /\ forall p j, p < trows t A -> j < tcols t A -> tr t f p j = X p j.

Lemma part_in t A o n a : o + n <= trows t A -> inm (part t A o n) a -> inm A a.
Proof. unfold part, trows. destruct t; intros H; apply inm_subm; cbn; lia. Qed.
Lemma part_val m t A o n X : o + n <= trows t A -> tval m t A X -> tval m t (part t A o n) (fun p j => X (o + p)%nat j).
Proof.
  unfold part, tval, tcols, trows. intros H (f & Hf & E). destruct t; cbn [tr mrows mcols subm] in *.
  - exists (fun i j => f i (o + j)%nat). split; [apply (mval_subm _ _ _ 0 _ o _ Hf); lia|]. intros p j Hp Hj. apply (E (o + p) j); lia.
  - exists (fun i j => f (o + i)%nat j). split; [apply (mval_subm _ _ _ o _ 0 _ Hf); lia|]. intros p j Hp Hj. apply (E (o + p) j); lia.
Qed.
Lemma part_rows t A o n : trows t (part t A o n) = n. Proof. destruct t; reflexivity. Qed.
Lemma part_cols t A o n : tcols t (part t A o n) = tcols t A. Proof. destruct t; reflexivity. Qed.
Lemma tval_keeps (W : addr -> Prop) m m' t A X : tval m t A X -> keeps W m m' -> disj (inm A) W -> tval m' t A X.
Proof. intros (f & Hf & E) Hk Hd. exists f. split; [eapply mval_keeps; eauto|exact E]. Qed.

Section Gen.
Variable t' : bool.
Fixpoint fwdm (cb : cbasis G) (Xp Xt : mat) : prog K unit :=
  match cb with
  | CB t k ktree _ V _ l _ =>
      passert ((if t' then mcols Xp else mrows Xp) =? csz t) ;;;
      passert (mrows Xt =? ktree) ;;;
      passert ((if t' then mrows Xp else mcols Xp) =? mcols Xt) ;;;
      Xc <- init_sub_amatrix Xt k 0 (mcols Xt) 0 ;;
      clear_amatrix Xc ;;;
      match l with
      | _ :: _ =>
          let rec := map (fun s => (s, fwdm s)) l in
          offs <- sons rec (fun i w '(xpoff, xtoff) =>
            n <- tson_size t i ;;
            Xp1 <- (if t' then init_sub_amatrix Xp (mrows Xp) 0 n xpoff else init_sub_amatrix Xp n xpoff (mcols Xp) 0) ;;
            Xt1 <- init_sub_amatrix Xt (cb_ktree (fst w)) xtoff (mcols Xt) 0 ;;
            snd w Xp1 Xt1 ;;;
            uninit_amatrix Xt1 ;;;
            uninit_amatrix Xp1 ;;;
            Xt1 <- init_sub_amatrix Xt (cb_k (fst w)) xtoff (mcols Xt) 0 ;;
            addmul_amatrix f1 true (cb_E (fst w)) false Xt1 Xc ;;;
            uninit_amatrix Xt1 ;;;
            Ret (xpoff + n, xtoff + cb_ktree (fst w))) (0, k) ;;
          passert (fst offs =? csz t) ;;;
          passert (snd offs =? ktree)
      | [] =>
          Xt1 <- init_sub_amatrix Xt (csz t) k (mcols Xt) 0 ;;
          copy_amatrix t' Xp Xt1 ;;;
          addmul_amatrix f1 true V false Xt1 Xc ;;;
          uninit_amatrix Xt1
      end ;;;
      uninit_amatrix Xc
  end.
End Gen.
Lemma fwdm_false : @forward_clusterbasis_amatrix K G = fwdm false. Proof. reflexivity. Qed.
Lemma fwdm_true : @forward_clusterbasis_trans_amatrix K G = fwdm true. Proof. reflexivity. Qed.

Lemma wp_init_part R W t A o n m (Q : mat -> mem K -> Prop) : o + n <= trows t A -> Q (part t A o n) m ->
  wp R W (if t then init_sub_amatrix A (mrows A) 0 n o else init_sub_amatrix A n o (mcols A) 0) m Q.
Proof. unfold part, trows. intros H HQ. destruct t; apply wp_init_sub_amatrix; try lia; exact HQ. Qed.

(** One multiplication with a transfer matrix *)
Lemma wp_fwdm_son cb i s R W (Xt : mat) X m0 m1 m2 Ys (Q : unit -> mem K -> Prop) :
  cbok cb -> nth_error (cb_son cb) i = Some s -> mrows Xt = cb_ktree cb -> mwf Xt -> cbinit m0 cb -> disj (incb cb) (inm Xt) ->
  keeps (inm Xt) m0 m2 -> (forall j, j < mcols Xt -> fwd_inv m0 m1 cb (fun o => ma Xt o j) (fun p => X p j) i) ->
  mval m2 (rb Xt (cb_k cb + nsum i (at_ cb_ktree (cb_son cb))) (cb_ktree s)) Ys ->
  keeps (inm (rb Xt (cb_k cb + nsum i (at_ cb_ktree (cb_son cb))) (cb_ktree s))) m1 m2 ->
  (forall j, j < mcols Xt -> fwd_of (cbmat m0) s (fun p => X (nsum i (at_ cb_size (cb_son cb)) + p)%nat j) (fun o => Ys o j)) ->
  rdok R W (incb cb) -> wrok W (inm Xt) ->
  (forall m3, (forall j, j < mcols Xt -> fwd_inv m0 m3 cb (fun o => ma Xt o j) (fun p => X p j) (S i)) -> keeps (inm (rb Xt 0 (cb_k cb))) m2 m3 -> Q tt m3) ->
  wp R W (addmul_amatrix f1 true (cb_E s) false (rb Xt (cb_k cb + nsum i (at_ cb_ktree (cb_son cb))) (cb_k s)) (rb Xt 0 (cb_k cb))) m2 Q.
Proof.
  intros Hok Hs Ex Hwf Hini D1 K2 HI Hv Hk Hf R1 W1 HQ. set (off := cb_k cb + nsum i (at_ cb_ktree (cb_son cb))) in *.
  destruct (nth_in _ _ _ Hs) as [Hi Hin]. destruct (cbok_son cb s Hok Hin) as (Hoks & E1 & E2).
  destruct (son_room cb i s Hok Hs) as [_ Hroom]. fold off in Hroom. pose proof (cbok_k_ktree s Hoks) as Hks.
  assert (DE : disj (inm (cb_E s)) (inm Xt)) by (intros a Ha; apply D1; eapply incb_E; eauto).
  eapply (wp_addmul_amatrix L R W f1 true (cb_E s) false (rb Xt off (cb_k s)) (rb Xt 0 (cb_k cb)) (mfun m0 (cb_E s)) Ys
            (fun q j => match get m1 (ma Xt q j) with Val v => v | _ => f0 end)).
  - apply mwf_subm; [exact Hwf|lia].
  - eapply mval_keeps; [exact (cbinit_E m0 cb s Hini Hin)|exact K2|exact DE].
  - intros q j Hq Hj. cbn in Hq, Hj. specialize (Hv q j). rewrite rb_ma in *. apply Hv; cbn; lia.
  - intros q j Hq Hj. cbn in Hq, Hj. rewrite rb_ma. rewrite (proj2 Hk) by (apply rb_notin; [exact Hwf|lia..]).
    destruct (HI j Hj) as (Y & A1 & _). cbn [Nat.add]. rewrite A1 by lia. reflexivity.
  - apply rb_disj; [lia|exact DE].
  - apply rb_sep; [exact Hwf|lia..].
  - intros a Ha. apply R1. eapply incb_E; eauto.
  - apply rb_wr; [lia|exact W1].
  - apply rb_w; [lia|exact W1].
  - cbn. lia.
  - cbn. lia.
  - cbn. exact E1.
  - intros m3 Hv3 Hk3. apply HQ; [|exact Hk3]. intros j Hj.
    eapply (fwd_inv_step m0 m1 m3 cb (fun o => ma Xt o j) (fun p => X p j) i s (fun o => Ys o j) Hok); [exact (HI j Hj)|exact Hs| | |exact (Hf j Hj)|].
    + intros o Ho. rewrite (proj2 Hk3) by (apply rb_notin; [exact Hwf|lia..]). rewrite (proj2 Hk) by (apply rb_notin; [exact Hwf|lia..]). reflexivity.
    + intros o Ho. fold off. rewrite (proj2 Hk3) by (apply rb_notin; [exact Hwf|lia..]). specialize (Hv o j). rewrite rb_ma in Hv. apply Hv; [exact Ho|exact Hj].
    + intros q v Hq Hv0. specialize (Hv3 q j). rewrite rb_ma in Hv3. cbn [Nat.add] in Hv3. rewrite Hv3 by (cbn; lia). rewrite Hv0.
      cbn [mcols subm tr]. rewrite E2. apply Nat.ltb_lt in Hq, Hj. rewrite Hq, Hj. cbn [andb]. f_equal. rewrite E1. ring.
Qed.

Lemma wp_fwdm t' cb : forall R W Xp Xt X m (Q : unit -> mem K -> Prop),
  cbok cb -> cbinit m cb -> mrows Xt = cb_ktree cb -> mwf Xt -> malloc m Xt -> trows t' Xp = cb_size cb -> tcols t' Xp = mcols Xt -> tval m t' Xp X ->
  disj (inm Xp) (inm Xt) -> disj (incb cb) (inm Xt) -> rdok R W (incb cb) -> rdok R W (inm Xp) -> wrok W (inm Xt) ->
  (forall m' Y, mval m' Xt Y -> (forall j, j < mcols Xt -> fwd_of (cbmat m) cb (fun p => X p j) (fun o => Y o j)) -> keeps (inm Xt) m m' -> Q tt m') ->
  wp R W (fwdm t' cb Xp Xt) m Q.
Proof.
  induction cb as [cb IH] using cb_rect'. intros R W Xp Xt X m Q Hok Hini Ex Hwf Ha Er Ec Hs D1 D2 R1 R2 W1 HQ.
  destruct cb as [t k kt kb V E l Z] eqn:Ecb. cbn [fwdm].
  assert (Hkk : k <= kt) by exact (cbok_k_ktree _ Hok). change (trows t' Xp = csz t) in Er.
  cbn [cb_ktree] in Ex. change (if t' then mcols Xp else mrows Xp) with (trows t' Xp). change (if t' then mrows Xp else mcols Xp) with (tcols t' Xp).
  wstep. wstep. wstep.
  apply wp_bind, wp_init_sub_amatrix; [lia|lia|].
  apply wp_bind, wp_clear_amatrix; [apply mwf_subm; [exact Hwf|lia]|apply rb_malloc; [exact Ha|lia]|apply rb_w; [lia|exact W1]|].
  intros m0 Hc0 Hk0. assert (K0 : keeps (inm Xt) m m0) by (eapply rb_keeps; [|exact Hk0]; lia).
  assert (Ha0 : malloc m0 Xt) by (eapply rb_malloc_keeps; [exact Hwf| |exact Ha|eapply mval_malloc; exact Hc0|exact Hk0]; lia).
  destruct l as [|s0 l0].
  - destruct (cbok_leaf_inv _ _ _ _ _ _ _ Hok) as (-> & -> & EV1 & EV2).
    assert (D3 : disj (inm V) (inm Xt)) by (intros a Ha'; apply D2; constructor; exact Ha').
    destruct (tval_keeps _ _ _ _ _ _ Hs K0 D1) as (f & Hf & Ef).
    apply wp_bind, wp_bind, wp_init_sub_amatrix; [lia|lia|].
    apply wp_bind. eapply wp_copy_amatrix; [apply mwf_subm; [exact Hwf|lia]|exact Hf|apply rb_malloc; [exact Ha0|lia]|apply rb_disj; [lia|exact D1]|exact R2|apply rb_w; [lia|exact W1]|exact Er|exact Ec|].
    intros m1 Hv1 Hk1. apply wp_bind.
    eapply (wp_addmul_amatrix L R W f1 true V false (rb Xt k (csz t)) (rb Xt 0 k) (mfun m V) (tr t' f) (fun _ _ => f0)).
    { apply mwf_subm; [exact Hwf|lia]. }
    { eapply mval_keeps; [eapply cbinit_V; exact Hini|eapply keeps_trans; [exact K0|eapply rb_keeps; [|exact Hk1]; lia]|exact D3]. }
    { exact Hv1. }
    { eapply mval_keeps; [exact Hc0|exact Hk1|]. apply rb_sep; [exact Hwf|lia..]. }
    { apply rb_disj; [lia|exact D3]. }
    { apply rb_sep; [exact Hwf|lia..]. }
    { intros a Ha'. apply R1. constructor. exact Ha'. }
    { apply rb_wr; [lia|exact W1]. }
    { apply rb_w; [lia|exact W1]. }
    { cbn. lia. }
    { cbn. lia. }
    { cbn. exact EV1. }
    intros m2 Hv2 Hk2. cbn [uninit_amatrix mown subm wp].
    assert (EX : forall p j, p < csz t -> j < mcols Xt -> tr t' f p j = X p j) by (intros; apply Ef; lia).
    apply (HQ m2 (fun o j => if o <? k then sum (csz t) (fun p => fconj (mfun m V p o) * X p j)%F else X (o - k) j)).
    + intros o j Ho Hj. destruct (Nat.ltb_spec o k) as [Ho'|Ho'].
      * specialize (Hv2 o j). rewrite rb_ma in Hv2. cbn [Nat.add] in Hv2. rewrite Hv2 by (cbn; lia). cbn [tr mcols subm].
        rewrite EV2, EV1. pose proof Hj as Hj'. apply Nat.ltb_lt in Ho', Hj'. rewrite Ho', Hj'. cbn [andb]. f_equal.
        rewrite (sum_ext (csz t) _ (fun p => fconj (mfun m V p o) * X p j)%F); [ring|]. intros p Hp. rewrite EX by assumption. reflexivity.
      * rewrite (proj2 Hk2) by (apply rb_notin; [exact Hwf|lia..]). specialize (Hv1 (o - k) j). rewrite rb_ma in Hv1.
        replace (k + (o - k)) with o in Hv1 by lia. rewrite Hv1 by (cbn; lia). f_equal. apply EX; lia.
    + intros j Hj. apply fwd_leaf; [exact Hok|reflexivity| |]; unfold cb_size; cbn [cb_k cb_V cb_t].
      * intros q Hq. apply Nat.ltb_lt in Hq. rewrite Hq. reflexivity.
      * intros p Hp. destruct (Nat.ltb_spec (k + p) k); [lia|]. f_equal. lia.
    + eapply keeps_trans; [exact K0|]. eapply keeps_trans; [eapply rb_keeps; [|exact Hk1]; lia|eapply rb_keeps; [|exact Hk2]; lia].
  - remember (s0 :: l0) as l eqn:El. assert (Hln : l <> []) by (subst l; discriminate).
    pose (cb' := CB t k kt kb V E l Z). fold cb' in Hok, Hini, D2, R1, HQ, IH.
    pose proof (cbok_size cb' Hok Hln) as Esz. change (csz t = nsum (length l) (at_ cb_size l)) in Esz.
    pose proof (cbok_ktree_node cb' Hok Hln) as Ekt. change (kt = k + nsum (length l) (at_ cb_ktree l)) in Ekt.
    apply wp_bind. rewrite El. cbv zeta. rewrite <- El. apply wp_bind. unfold sons. rewrite map_length.
    apply (wp_forS (fun i offs m1 => offs = (nsum i (at_ cb_size l), k + nsum i (at_ cb_ktree l)) /\
      (forall j, j < mcols Xt -> fwd_inv m m1 cb' (fun o => ma Xt o j) (fun p => X p j) i) /\ keeps (inm Xt) m m1 /\ malloc m1 Xt)).
    + split; [cbn [nsum]; rewrite Nat.add_0_r; reflexivity|]. split; [|split; [exact K0|exact Ha0]]. intros j Hj. apply fwd_inv_0. intros o Ho. specialize (Hc0 o j). rewrite rb_ma in Hc0. apply Hc0; assumption.
    + intros i offs m1 [_ Hi] (-> & HI & K1 & Ha1). cbn in Hi. destruct (nth_ex l i Hi) as [s Hsi].
      rewrite (sget_map _ _ _ _ Hsi). cbn [bind fst snd]. destruct (nth_in _ _ _ Hsi) as [_ Hin].
      assert (Hr1 : nsum i (at_ cb_size l) + cb_size s <= csz t) by apply (son_room cb' i s Hok Hsi).
      assert (Hr2 : k + nsum i (at_ cb_ktree l) + cb_ktree s <= kt) by apply (son_room cb' i s Hok Hsi).
      destruct (cbok_son cb' s Hok Hin) as (Hoks & _ & _).
      rewrite (cbok_tsz cb' i s Hok Hsi : tson_size t i = _). cbn [bind].
      apply wp_bind, wp_init_part; [lia|]. apply wp_bind, wp_init_sub_amatrix; [lia|lia|]. apply wp_bind.
      eapply (IH s Hin R W (part t' Xp (nsum i (at_ cb_size l)) (cb_size s)) (rb Xt (k + nsum i (at_ cb_ktree l)) (cb_ktree s)) (fun p j => X (nsum i (at_ cb_size l) + p)%nat j)).
      * exact Hoks.
      * eapply cbinit_keeps; [eapply cbinit_son; [exact Hini|exact Hin]|exact K1|]. apply (son_disj _ cb' s Hin D2).
      * reflexivity.
      * apply mwf_subm; [exact Hwf|lia].
      * apply rb_malloc; [exact Ha1|lia].
      * apply part_rows.
      * rewrite part_cols. exact Ec.
      * apply part_val; [lia|]. eapply tval_keeps; [exact Hs|exact K1|exact D1].
      * apply rb_disj; [lia|]. intros a Ha' Hb. apply (D1 a); [|exact Hb]. eapply part_in; [|exact Ha']. lia.
      * apply rb_disj; [lia|]. apply (son_disj _ cb' s Hin D2).
      * apply (son_w _ _ cb' s Hin R1).
      * intros a Ha'. apply R2. eapply part_in; [|exact Ha']. lia.
      * apply rb_w; [lia|exact W1].
      * intros m2 Ys HYs HFs Hk2.
        assert (EU : forall A, mown A = false -> uninit_amatrix A = @Ret K unit tt) by (intros A HA; unfold uninit_amatrix; rewrite HA; reflexivity).
        rewrite (EU (rb Xt (k + nsum i (at_ cb_ktree l)) (cb_ktree s)) eq_refl), (EU (part t' Xp (nsum i (at_ cb_size l)) (cb_size s))) by (destruct t'; reflexivity).
        cbn [bind wp].
        apply wp_bind, wp_init_sub_amatrix; [pose proof (cbok_k_ktree s Hoks); lia|lia|]. apply wp_bind.
        assert (K2 : keeps (inm Xt) m m2) by (eapply keeps_trans; [exact K1|eapply rb_keeps; [|exact Hk2]; lia]).
        eapply (wp_fwdm_son cb' i s R W Xt X m m1 m2 Ys); [exact Hok|exact Hsi|exact Ex|exact Hwf|exact Hini|exact D2|exact K2|exact HI|exact HYs|exact Hk2| |exact R1|exact W1|].
        -- intros j Hj. eapply fwd_of_ext; [exact Hoks|exact (HFs j Hj)| |reflexivity|reflexivity]. apply (cbmat_son_keeps m m1 cb' s (inm Xt) Hin K1 D2).
        -- intros m3 HI3 Hk3. cbn [uninit_amatrix mown subm bind wp nsum]. rewrite !(at_nth _ _ _ _ Hsi).
           split; [f_equal; lia|]. split; [exact HI3|].
           assert (Ha2 : malloc m2 Xt) by (eapply rb_malloc_keeps; [exact Hwf| |exact Ha1|eapply mval_malloc; exact HYs|exact Hk2]; lia).
           split; [eapply keeps_trans; [exact K2|eapply rb_keeps; [|exact Hk3]; cbn; lia]|].
           eapply rb_malloc_keeps; [exact Hwf| |exact Ha2| |exact Hk3]; [cbn; lia|].
           intros q j Hq Hj. destruct (HI3 j Hj) as (Y3 & B1 & _). rewrite rb_ma. cbn [Nat.add]. cbn in Hq. rewrite (B1 q) by (cbn [cb_k cb']; lia). discriminate.
    + intros offs m1 (-> & HI & K1 & Ha1). cbn [Nat.add fst snd] in HI |- *. wstep. wstep. cbn [uninit_amatrix mown subm wp].
      apply (HQ m1 (fun o j => match get m1 (ma Xt o j) with Val v => v | _ => f0 end)); [| |exact K1].
      * intros o j Ho Hj. destruct (fwd_inv_end L m m1 cb' _ _ Hok Hln (HI j Hj)) as (Y & HY & _). cbv beta in HY. rewrite HY by (cbn; lia). reflexivity.
      * intros j Hj. destruct (fwd_inv_end L m m1 cb' _ _ Hok Hln (HI j Hj)) as (Y & HY & HF). eapply fwd_of_ext; [exact Hok|exact HF|reflexivity|reflexivity|].
        intros q Hq. cbv beta in HY. rewrite HY by exact Hq. reflexivity.
Qed.
End P9.
