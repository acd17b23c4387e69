(** * Forward transformations *)
From Coq Require Import Arith Lia List Bool Ring.
From Verif Require Import Fld Ord Prog Arr View Loop Spec Cluster Block Avector AvectorP Amatrix AmatrixP Hmatrix HmSpec HmP Clusterbasis CbSpec CbP.
Import ListNotations.

Lemma subv_subv x a n b k : subv (subv x a n) b k = subv x (a + b) k.
Proof. unfold subv; cbn. rewrite Nat.add_assoc. reflexivity. Qed.
Lemma va_subv0 x n i : va (subv x 0 n) i = va x i. Proof. apply va_subv. Qed.

Section P2.
Context {K : fops} {G : ofops} (L : ring_laws K).
Add Ring KringCb2 : (rl_ring K L).
Implicit Types (m : mem K) (cb c s : cbasis G) (X Y B : nat -> K).

(** Product with only the relevant parts of [x] and [y]. *)
Lemma wp_mvm_pre R W alpha (t : bool) A x y nx ny f g h m (Q : unit -> mem K -> Prop) :
  nx = (if t then mrows A else mcols A) -> ny = (if t then mcols A else mrows A) -> nx <= vdim x -> ny <= vdim y ->
  mval m A f -> vval m (subv x 0 nx) g -> vval m (subv y 0 ny) h ->
  disj (inm A) (inv (subv y 0 ny)) -> disj (inv (subv x 0 nx)) (inv (subv y 0 ny)) ->
  rdok R W (inm A) -> rdok R W (inv (subv x 0 nx)) -> wrok W (inv (subv y 0 ny)) ->
  (forall m', vval m' (subv y 0 ny) (fun i => h i + alpha * sum nx (fun j => tr t f i j * g j))%F ->
     keeps (inv (subv y 0 ny)) m m' -> Q tt m') ->
  wp R W (mvm_amatrix_avector alpha t A x y) m Q.
Proof.
  intros Ex Ey Hx Hy HA Hg Hh D1 D2 R1 R2 W1 HQ.
  assert (E : mvm_amatrix_avector alpha t A x y = mvm_amatrix_avector alpha t A (subv x 0 nx) (subv y 0 ny)).
  { unfold mvm_amatrix_avector, addevaltrans_amatrix_avector, addeval_amatrix_avector. unfold vload, vstore.
    assert (Ea : forall z n i, va (subv z 0 n) i = va z i) by (intros; apply va_subv0).
    destruct t; cbn [vdim subv]; subst nx ny.
    - repeat (match goal with |- context [?a <=? ?b] => destruct (Nat.leb_spec a b); [|lia] end). cbn [passert bind].
      unfold va; cbn [vblk voff subv]. rewrite !Nat.add_0_r. reflexivity.
    - repeat (match goal with |- context [?a <=? ?b] => destruct (Nat.leb_spec a b); [|lia] end). cbn [passert bind].
      unfold va; cbn [vblk voff subv]. rewrite !Nat.add_0_r. reflexivity. }
  rewrite E. eapply wp_mvm_amatrix_avector; [exact HA|exact Hg|exact Hh|cbn; lia|cbn; lia|exact D1|exact D2|exact R1|exact R2|exact W1|].
  intros m' H1 H2. apply HQ; [|exact H2]. eapply vval_ext; [exact H1|]. intros i Hi. cbn in Hi. cbv beta.
  rewrite <- Ey. destruct (Nat.ltb_spec i ny); [|lia]. rewrite <- Ex. reflexivity.
Qed.

(** ** Invariant of the loop over the sons.  [xt] gives the addresses of the coefficients. *)
Definition fwd_inv (m0 m : mem K) cb (xt : nat -> addr) X (i : nat) : Prop :=
  exists Y, (forall o, o < cb_k cb + nsum i (at_ cb_ktree (cb_son cb)) -> get m (xt o) = Val (Y o)) /\
    (forall q, q < cb_k cb -> Y q = fwd_part m0 cb X i q) /\
    (forall j s, j < i -> nth_error (cb_son cb) j = Some s ->
       fwd_of (cbmat m0) s (shiftv X (nsum j (at_ cb_size (cb_son cb)))) (shiftv Y (cb_k cb + nsum j (at_ cb_ktree (cb_son cb))))).

Lemma fwd_inv_0 m0 m cb xt X : (forall o, o < cb_k cb -> get m (xt o) = Val (f0 : K)) -> fwd_inv m0 m cb xt X 0.
Proof.
  intros H. exists (fun _ => f0). split; [intros o Ho; cbn in Ho; apply H; lia|]. split; [reflexivity|]. intros; lia.
Qed.

Lemma fwd_inv_step m0 m1 m3 cb xt X i s Ys : cbok cb -> fwd_inv m0 m1 cb xt X i -> nth_error (cb_son cb) i = Some s ->
  (forall o, cb_k cb <= o < cb_k cb + nsum i (at_ cb_ktree (cb_son cb)) -> get m3 (xt o) = get m1 (xt o)) ->
  (forall o, o < cb_ktree s -> get m3 (xt (cb_k cb + nsum i (at_ cb_ktree (cb_son cb)) + o)) = Val (Ys o)) ->
  fwd_of (cbmat m0) s (shiftv X (nsum i (at_ cb_size (cb_son cb)))) Ys ->
  (forall q v, q < cb_k cb -> get m1 (xt q) = Val v -> get m3 (xt q) = Val (v + sum (cb_k s) (fun r => fconj (mfun m0 (cb_E s) r q) * Ys r))%F) ->
  fwd_inv m0 m3 cb xt X (S i).
Proof.
  intros Hok (Y & A1 & A2 & A3) Hs H1 H2 H3 H4. unfold fwd_inv.
  set (k := cb_k cb) in *. set (off := k + nsum i (at_ cb_ktree (cb_son cb))) in *.
  exists (fun o => if o <? k then fwd_part m0 cb X (S i) o else if o <? off then Y o else Ys (o - off)).
  cbn [nsum]. rewrite (at_nth _ _ _ _ Hs). split; [|split].
  - intros o Ho. destruct (Nat.ltb_spec o k).
    + rewrite (H4 o (Y o)); [|assumption|apply A1; lia]. f_equal. rewrite (A2 o) by assumption.
      unfold fwd_part. cbn [sum]. rewrite (onth_nth _ _ _ _ Hs). f_equal. apply sum_ext. intros r Hr. f_equal.
      apply (fwd_of_self _ _ _ _ H3). exact Hr.
    + destruct (Nat.ltb_spec o off).
      * rewrite H1 by lia. apply A1. lia.
      * replace o with (off + (o - off)) at 1 by lia. apply H2. lia.
  - intros q Hq. apply Nat.ltb_lt in Hq. rewrite Hq. reflexivity.
  - intros j s' Hj Hs'. destruct (Nat.eq_dec j i) as [->|Hne].
    + rewrite Hs in Hs'. injection Hs' as <-. eapply fwd_of_ext; [apply (cbok_son cb s Hok (proj2 (nth_in _ _ _ Hs)))|exact H3|reflexivity|reflexivity|].
      intros q Hq. unfold shiftv. fold k off. destruct (Nat.ltb_spec (off + q) k); [lia|]. destruct (Nat.ltb_spec (off + q) off); [lia|].
      f_equal. lia.
    + eapply fwd_of_ext; [apply (cbok_son cb s' Hok (proj2 (nth_in _ _ _ Hs')))|apply (A3 j s'); [lia|exact Hs']|reflexivity|reflexivity|].
      intros q Hq. unfold shiftv. pose proof (nsum_in (at_ cb_ktree (cb_son cb)) j i ltac:(lia)) as B. rewrite (at_nth _ _ _ _ Hs') in B.
      fold k. destruct (Nat.ltb_spec (k + nsum j (at_ cb_ktree (cb_son cb)) + q) k); [lia|].
      destruct (Nat.ltb_spec (k + nsum j (at_ cb_ktree (cb_son cb)) + q) off); [reflexivity|lia].
Qed.

Lemma fwd_inv_end m0 m cb xt X : cbok cb -> cb_son cb <> [] -> fwd_inv m0 m cb xt X (length (cb_son cb)) ->
  exists Y, (forall o, o < cb_ktree cb -> get m (xt o) = Val (Y o)) /\ fwd_of (cbmat m0) cb X Y.
Proof.
  intros Hok Hn (Y & A1 & A2 & A3). exists Y. rewrite (cbok_ktree cb Hok).
  assert (El : cb_leaf cb = false) by (unfold cb_leaf; destruct (cb_son cb); [congruence|reflexivity]). rewrite El.
  split; [exact A1|]. apply fwd_of_intro; [exact Hok| | |].
  - intros q Hq. rewrite A2 by exact Hq. symmetry. apply (fwdc_node L); assumption.
  - congruence.
  - intros i s Hs. apply A3; [apply (nth_in _ _ _ Hs)|exact Hs].
Qed.

Lemma fwd_leaf m cb X Y : cbok cb -> cb_son cb = [] ->
  (forall q, q < cb_k cb -> Y q = sum (cb_size cb) (fun p => fconj (mfun m (cb_V cb) p q) * X p)%F) ->
  (forall p, p < cb_size cb -> Y (cb_k cb + p)%nat = X p) -> fwd_of (cbmat m) cb X Y.
Proof.
  intros Hok E H1 H2. apply fwd_of_intro; [exact Hok| | |].
  - intros q Hq. unfold fwdc. rewrite (cbmat_leaf m cb E). apply H1, Hq.
  - intros _. exact H2.
  - rewrite E. intros [|i] s H; discriminate.
Qed.

(** Cells of a part of a vector *)
Lemma in_subv x o n i : i < n -> inv (subv x o n) (va x (o + i)).
Proof. intros H. exists i. rewrite va_subv. auto. Qed.
Lemma notin_subv x o n i : i < o \/ o + n <= i -> ~ inv (subv x o n) (va x i).
Proof. intros H (j & Hj & E). cbn in Hj. rewrite va_subv in E. apply va_inj in E. lia. Qed.
Lemma subv_sep x a n b n' : a + n <= b \/ b + n' <= a -> disj (inv (subv x a n)) (inv (subv x b n')).
Proof. intros H c (i & Hi & ->) (j & Hj & E). cbn in Hi, Hj. rewrite !va_subv in E. apply va_inj in E. lia. Qed.

(** The source of the permuted transformations *)
Definition perm_src (idx : arr nat) m x (off n : nat) (ip : nat -> nat) X : Prop :=
  forall p, p < n -> aget idx (off + p) = Ok (ip p) /\ ip p < vdim x /\ get m (va x (ip p)) = Val (X p).
Lemma perm_src_keeps idx m m' x off n ip X (W : addr -> Prop) : perm_src idx m x off n ip X -> keeps W m m' -> disj (inv x) W -> perm_src idx m' x off n ip X.
Proof.
  intros H [_ Hk] Hd p Hp. destruct (H p Hp) as (A1 & A2 & A3). split; [exact A1|]. split; [exact A2|]. rewrite Hk; [exact A3|].
  intros Hw. apply (Hd (va x (ip p))); [|exact Hw]. exists (ip p). auto.
Qed.

Lemma wp_cb_gather R W idx off n x xp ip X m (Q : unit -> mem K -> Prop) :
  perm_src idx m x off n ip X -> n = vdim xp -> valloc m xp -> disj (inv x) (inv xp) -> rdok R W (inv x) -> wrok W (inv xp) ->
  (forall m', vval m' xp X -> keeps (inv xp) m m' -> Q tt m') ->
  wp R W (cb_gather idx off n x xp) m Q.
Proof.
  intros Hs En Ha Hd Hr Hw HQ. unfold cb_gather. eapply wp_vfill with (g := X); [exact Ha|exact En| |exact HQ].
  intros i m1 Hi Ha1 Hk1 _. destruct (perm_src_keeps _ _ _ _ _ _ _ _ _ Hs Hk1 Hd i Hi) as (A1 & A2 & A3).
  apply wp_bind, wp_lift. rewrite A1. cbn [rok]. apply wp_bind. eapply wp_pload; [exact A3|apply Hr; exists (ip i); auto|].
  wstep. wrote_tac.
Qed.

Lemma incb_leafV (t : cptr G) k kt kb V E Z a : inm V a -> incb (CB t k kt kb V E [] Z) a.
Proof. apply incb_V. Qed.

Lemma valloc_subv m x o n : valloc m x -> o + n <= vdim x -> valloc m (subv x o n).
Proof. intros H Ho i Hi. cbn in Hi. rewrite va_subv. apply H. lia. Qed.

(** The leaf case, shared by the sequential and the parallel version *)
Lemma wp_forward_leaf idx (t : cptr G) k kb V E Z R W x xt ip X m m0 (Q : unit -> mem K -> Prop) :
  cbok (CB t k (k + csz t) kb V E [] Z) -> mval m V (mfun m0 V) -> vdim xt = k + csz t -> valloc m xt ->
  perm_src idx m x (c_off (cp_c t)) (csz t) ip X -> vval m (subv xt 0 k) (fun _ => f0) ->
  disj (inv x) (inv xt) -> disj (inm V) (inv xt) -> rdok R W (inm V) -> rdok R W (inv x) -> wrok W (inv xt) ->
  (forall m' Y, vval m' xt Y -> fwd_of (cbmat m0) (CB t k (k + csz t) kb V E [] Z) X Y -> keeps (inv xt) m m' -> Q tt m') ->
  wp R W (xp <- init_sub_avector xt (csz t) k ;;
          cb_gather idx (c_off (cp_c t)) (csz t) x xp ;;;
          mvm_amatrix_avector f1 true V xp (subv xt 0 k) ;;;
          uninit_avector xp) m Q.
Proof.
  intros Hok HV Ex Ha Hs Hc D1 D2 R1 R2 W1 HQ. inversion Hok as [? ? ? ? ? EV1 EV2|]; subst; [|congruence].
  apply wp_bind, wp_init_sub_avector; [lia|].
  apply wp_bind. eapply wp_cb_gather; [exact Hs|reflexivity|apply valloc_subv; [exact Ha|lia]|apply (subv_disj x); [lia|exact D1]|exact R2| |].
  { intros a Ha'. apply W1. eapply inv_subv; [|exact Ha']. lia. }
  intros m1 Hv1 Hk1. apply wp_bind.
  eapply (wp_mvm_pre R W f1 true V (subv xt (mcols V) (csz t)) (subv xt 0 (mcols V)) (csz t) (mcols V)); [congruence|reflexivity|cbn; lia|cbn; lia| | | | | | | | |].
  { eapply mval_keeps; [exact HV|exact Hk1|]. apply (subv_disj x); [lia|exact D2]. }
  { rewrite subv_subv, Nat.add_0_r. exact Hv1. }
  { rewrite subv_subv, Nat.add_0_r. eapply vval_keeps; [exact Hc|exact Hk1|]. apply subv_sep. lia. }
  { rewrite subv_subv. apply (subv_disj x); [lia|exact D2]. }
  { rewrite !subv_subv. apply subv_sep. lia. }
  { exact R1. }
  { rewrite subv_subv. intros a Ha'. right. apply W1. eapply inv_subv; [|exact Ha']. lia. }
  { rewrite subv_subv. intros a Ha'. apply W1. eapply inv_subv; [|exact Ha']. lia. }
  intros m2 Hv2 Hk2. rewrite subv_subv, Nat.add_0_l in Hv2, Hk2. cbn [uninit_avector vown subv wp].
  apply (HQ m2 (fun o => if o <? mcols V then sum (csz t) (fun p => fconj (mfun m0 V p o) * X p)%F else X (o - mcols V))).
  - intros o Ho. destruct (Nat.ltb_spec o (mcols V)).
    + specialize (Hv2 o). rewrite va_subv0 in Hv2. rewrite Hv2 by (cbn; lia). f_equal. cbn [tr]. unfold tr. ring.
    + rewrite (proj2 Hk2) by (apply notin_subv; lia). specialize (Hv1 (o - mcols V)). rewrite va_subv in Hv1.
      replace (mcols V + (o - mcols V)) with o in Hv1 by lia. apply Hv1. cbn. lia.
  - apply fwd_leaf; [exact Hok|reflexivity| |]; unfold cb_size; cbn [cb_k cb_V cb_t].
    + intros q Hq. apply Nat.ltb_lt in Hq. rewrite Hq. reflexivity.
    + intros p Hp. destruct (Nat.ltb_spec (mcols V + p) (mcols V)); [lia|]. f_equal. lia.
  - eapply keeps_trans; [eapply keeps_subv; [|exact Hk1]; lia|eapply keeps_subv; [|exact Hk2]; lia].
Qed.

(** One multiplication with a transfer matrix *)
Lemma wp_forward_son cb i s R W (xc xt1 xt : vec) X m0 m1 m2 Ys (Q : unit -> mem K -> Prop) :
  cbok cb -> nth_error (cb_son cb) i = Some s -> vdim xt = cb_ktree cb -> cbinit m0 cb -> disj (incb cb) (inv xt) ->
  keeps (inv xt) m0 m2 -> fwd_inv m0 m1 cb (va xt) X i ->
  xc = subv xt 0 (cb_k cb) -> (exists n, xt1 = subv xt (cb_k cb + nsum i (at_ cb_ktree (cb_son cb))) n /\ cb_k s <= n <= cb_ktree s) ->
  vval m2 (subv xt (cb_k cb + nsum i (at_ cb_ktree (cb_son cb))) (cb_ktree s)) Ys ->
  keeps (inv (subv xt (cb_k cb + nsum i (at_ cb_ktree (cb_son cb))) (cb_ktree s))) m1 m2 ->
  fwd_of (cbmat m0) s (shiftv X (nsum i (at_ cb_size (cb_son cb)))) Ys ->
  rdok R W (incb cb) -> wrok W (inv xt) ->
  (forall m3, fwd_inv m0 m3 cb (va xt) X (S i) -> keeps (inv xc) m2 m3 -> Q tt m3) ->
  wp R W (mvm_amatrix_avector f1 true (cb_E s) xt1 xc) m2 Q.
Proof.
  intros Hok Hs Ex Hini D1 K2 HI -> (n & -> & Hn) Hv Hk Hf R1 W1 HQ. set (off := cb_k cb + nsum i (at_ cb_ktree (cb_son cb))) in *.
  destruct (nth_in _ _ _ Hs) as [Hi Hin]. destruct (cbok_son cb s Hok Hin) as (Hoks & E1 & E2).
  destruct (son_room cb i s Hok Hs) as [_ Hroom]. fold off in Hroom. pose proof (cbok_k_ktree s Hoks) as Hks.
  destruct HI as (Y & A1 & A2 & A3).
  assert (DE : disj (inm (cb_E s)) (inv xt)) by (intros a Ha; apply D1; eapply incb_E; eauto).
  eapply (wp_mvm_pre R W f1 true (cb_E s) (subv xt off n) (subv xt 0 (cb_k cb)) (cb_k s) (cb_k cb)); [congruence|congruence|cbn; lia|cbn; lia| | | | | | | | |].
  { eapply mval_keeps; [exact (cbinit_E m0 cb s Hini Hin)|exact K2|exact DE]. }
  { rewrite subv_subv, Nat.add_0_r. intros q Hq. cbn in Hq. specialize (Hv q). rewrite va_subv in *. apply Hv. cbn. lia. }
  { rewrite subv_subv. intros q Hq. cbn in Hq. rewrite va_subv0. rewrite (proj2 Hk) by (apply notin_subv; lia). apply A1. lia. }
  { rewrite subv_subv. apply (subv_disj xt); [lia|exact DE]. }
  { rewrite !subv_subv. apply subv_sep. lia. }
  { intros a Ha. apply R1. eapply incb_E; eauto. }
  { rewrite subv_subv. intros a Ha. right. apply W1. eapply inv_subv; [|exact Ha]. lia. }
  { rewrite subv_subv. intros a Ha. apply W1. eapply inv_subv; [|exact Ha]. lia. }
  intros m3 Hv3 Hk3. rewrite subv_subv, Nat.add_0_l in Hv3, Hk3. apply HQ; [|exact Hk3].
  eapply (fwd_inv_step m0 m1 m3 cb (va xt) X i s Ys Hok); [exists Y; auto|exact Hs| | |exact Hf|].
  - intros o Ho. rewrite (proj2 Hk3) by (apply notin_subv; lia). rewrite (proj2 Hk) by (apply notin_subv; lia). reflexivity.
  - intros o Ho. fold off. rewrite (proj2 Hk3) by (apply notin_subv; lia). specialize (Hv o). rewrite va_subv in Hv. apply Hv. exact Ho.
  - intros q v Hq Hv0. rewrite A1 in Hv0 by lia. injection Hv0 as <-. specialize (Hv3 q). rewrite va_subv0 in Hv3. rewrite Hv3 by (cbn; lia).
    f_equal. cbn [tr]. unfold tr. ring.
Qed.

Lemma wp_forward idx cb : forall R W x xt ip X m (Q : unit -> mem K -> Prop),
  cbok cb -> cbplaced cb -> cbinit m cb -> vdim xt = cb_ktree cb -> valloc m xt ->
  perm_src idx m x (cb_off cb) (cb_size cb) ip X ->
  disj (inv x) (inv xt) -> disj (incb cb) (inv xt) -> rdok R W (incb cb) -> rdok R W (inv x) -> wrok W (inv xt) ->
  (forall m' Y, vval m' xt Y -> fwd_of (cbmat m) cb X Y -> keeps (inv xt) m m' -> Q tt m') ->
  wp R W (forward_clusterbasis_avector idx cb x xt) m Q.
Proof.
  induction cb as [cb IH] using cb_rect'. intros R W x xt ip X m Q Hok Hpl Hini Ex Ha Hs D1 D2 R1 R2 W1 HQ.
  destruct cb as [t k kt kb V E l Z] eqn:Ecb. cbn [forward_clusterbasis_avector].
  assert (Hkk : k <= kt) by exact (cbok_k_ktree _ Hok).
  cbn [cb_ktree] in Ex. wstep.
  apply wp_bind, wp_init_sub_avector; [lia|].
  apply wp_bind, wp_clear_avector; [apply valloc_subv; [exact Ha|lia]|intros a Ha'; apply W1; eapply inv_subv; [|exact Ha']; lia|].
  intros m0 Hc0 Hk0. assert (K0 : keeps (inv xt) m m0) by (eapply keeps_subv; [|exact Hk0]; lia).
  assert (Ha0 : valloc m0 xt).
  { intros i Hi. destruct (Nat.lt_ge_cases i k).
    - specialize (Hc0 i). rewrite va_subv0 in Hc0. rewrite Hc0 by (cbn; lia). discriminate.
    - rewrite (proj2 Hk0) by (apply notin_subv; lia). apply Ha, Hi. }
  destruct l as [|s0 l0].
  - apply wp_bind. assert (E0 : kt = k + csz t /\ kb = k + csz t) by (inversion Hok; subst; [auto|congruence]). destruct E0 as [-> _].
    eapply wp_forward_leaf with (m0 := m); [exact Hok| |exact Ex|exact Ha0|eapply perm_src_keeps; [exact Hs|exact K0|exact D1]|exact Hc0|exact D1| | |exact R2|exact W1|].
    + eapply mval_keeps; [eapply cbinit_V; exact Hini|exact K0|]. intros a Ha'. apply D2. constructor. exact Ha'.
    + intros a Ha'. apply D2. constructor. exact Ha'.
    + intros a Ha'. apply R1. constructor. exact Ha'.
    + intros m' Y HY HF Hk'. cbn [uninit_avector vown subv wp]. eapply HQ; [exact HY|exact HF|eapply keeps_trans; [exact K0|exact Hk']].
  - remember (s0 :: l0) as l eqn:El. assert (Hln : l <> []) by (subst l; discriminate).
    assert (EQ : (match l with [] => @Ret K unit tt | _ => Ret tt end) = Ret tt) by (destruct l; reflexivity).
    pose (cb' := CB t k kt kb V E l Z). fold cb' in Hok, Hpl, Hini, D2, R1, HQ, IH, Hs.
    apply wp_bind. rewrite El. cbv zeta. rewrite <- El. apply wp_bind. unfold sons. rewrite map_length.
    apply (wp_forS (fun i xtoff m1 => xtoff = k + nsum i (at_ cb_ktree l) /\ fwd_inv m m1 cb' (va xt) X i /\ keeps (inv xt) m m1 /\ valloc m1 xt)).
    + split; [cbn; lia|]. split; [|split; [exact K0|exact Ha0]]. apply fwd_inv_0. intros o Ho. specialize (Hc0 o). rewrite va_subv0 in Hc0. apply Hc0. exact Ho.
    + intros i xtoff m1 [_ Hi] (-> & HI & K1 & Ha1). cbn in Hi. destruct (nth_ex l i Hi) as [s Hsi].
      rewrite (sget_map _ _ _ _ Hsi). cbn [bind fst snd]. destruct (nth_in _ _ _ Hsi) as [_ Hin].
      assert (Hr1 : nsum i (at_ cb_size l) + cb_size s <= cb_size cb') by apply (son_room cb' i s Hok Hsi).
      assert (Hr2 : k + nsum i (at_ cb_ktree l) + cb_ktree s <= kt) by apply (son_room cb' i s Hok Hsi).
      destruct (placed_son cb' i s Hpl Hsi) as [Eo Hpls]. destruct (cbok_son cb' s Hok Hin) as (Hoks & _ & _).
      apply wp_bind, wp_init_sub_avector; [lia|]. apply wp_bind.
      eapply (IH s Hin R W x (subv xt (k + nsum i (at_ cb_ktree l)) (cb_ktree s)) (fun p => ip (nsum i (at_ cb_size l) + p)) (shiftv X (nsum i (at_ cb_size l)))).
      * exact Hoks.
      * exact Hpls.
      * eapply cbinit_keeps; [eapply cbinit_son; [exact Hini|exact Hin]|exact K1|]. intros a Ha'. apply D2. eapply incb_son; eauto.
      * reflexivity.
      * apply valloc_subv; [exact Ha1|lia].
      * intros p Hp. rewrite Eo. destruct (perm_src_keeps _ _ _ _ _ _ _ _ _ Hs K1 D1 (nsum i (at_ cb_size l) + p)) as (B1 & B2 & B3); [lia|].
        cbn [cb_son cb']. rewrite <- Nat.add_assoc. auto.
      * apply (subv_disj x); [lia|exact D1].
      * apply (subv_disj x); [lia|]. intros a Ha'. apply D2. eapply incb_son; eauto.
      * intros a Ha'. apply R1. eapply incb_son; eauto.
      * exact R2.
      * intros a Ha'. apply W1. eapply inv_subv; [|exact Ha']. lia.
      * intros m2 Ys HYs HFs Hk2. apply wp_bind.
        assert (K2 : keeps (inv xt) m m2) by (eapply keeps_trans; [exact K1|eapply keeps_subv; [|exact Hk2]; lia]).
        eapply (wp_forward_son cb' i s R W _ _ xt X m m1 m2 Ys); [exact Hok|exact Hsi|exact Ex|exact Hini|exact D2|exact K2|exact HI|reflexivity| |exact HYs|exact Hk2| |exact R1|exact W1|].
        -- exists (cb_ktree s). split; [reflexivity|]. pose proof (cbok_k_ktree s Hoks). lia.
        -- eapply fwd_of_ext; [exact Hoks|exact HFs| |reflexivity|reflexivity]. intros o r c Hc p q _ _.
           eapply cbmat_keeps; [exact K1|]. intros a Ha'. apply D2. apply (incb_son cb' s a Hin). eapply incb_node; [exact Hc|exact Ha'].
        -- intros m3 HI3 Hk3. cbn [uninit_avector vown subv bind wp nsum]. rewrite (at_nth _ _ _ _ Hsi).
           split; [lia|]. split; [exact HI3|].
           assert (K3 : keeps (inv xt) m1 m3) by (eapply keeps_trans; [eapply keeps_subv; [|exact Hk2]; lia|eapply keeps_subv; [|exact Hk3]; cbn; lia]).
           split; [eapply keeps_trans; [exact K1|exact K3]|].
           intros q Hq. destruct HI3 as (Y3 & B1 & _). destruct (Nat.lt_ge_cases q (k + nsum (S i) (at_ cb_ktree l))) as [Hlt|Hge].
           ++ rewrite (B1 q Hlt). discriminate.
           ++ cbn [nsum] in Hge. rewrite (at_nth _ _ _ _ Hsi) in Hge. rewrite (proj2 Hk3) by (apply notin_subv; cbn; lia).
              rewrite (proj2 Hk2) by (apply notin_subv; lia). apply Ha1, Hq.
    + intros xtoff m1 (-> & HI & K1 & Ha1). cbn [Nat.add] in HI |- *. 
      pose proof (cbok_ktree cb' Hok) as Ekt. assert (Elf : cb_leaf cb' = false) by (unfold cb_leaf; cbn; destruct l; [congruence|reflexivity]).
      rewrite Elf in Ekt. cbn [cb_ktree cb_k cb_son cb'] in Ekt. wstep. cbn [uninit_avector vown subv wp].
      destruct (fwd_inv_end m m1 cb' (va xt) X Hok Hln HI) as (Y & HY & HF). eapply HQ; [|exact HF|exact K1].
      intros o Ho. apply HY. cbn. lia.
Qed.
End P2.
