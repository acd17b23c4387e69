(** * Parallel forward and backward transformations *)
From Coq Require Import Arith Lia List Bool Ring.
From Verif Require Import Fld Ord Prog Arr View Loop Spec Cluster Block Avector AvectorP Amatrix AmatrixP Hmatrix HmSpec HmP Par ParP ClusterPar ClusterParP Clusterbasis CbSpec CbP CbP2 CbP3 CbP4.
Import ListNotations.

(** ** Reasoning about threads *)
Section Wpt.
Context {K : Type}.
Implicit Types (m : mem K) (t : thr K).

(** Run in the order of the source text, [t] has no conflicting accesses, stays inside [R] and [W]
    and ends in a memory with property [Q]. *)
Definition wpt (R W : addr -> Prop) t m (Q : mem K -> Prop) : Prop :=
  exists l m', race_free m t l m' /\ inside R W l /\ Q m'.

Lemma wpt_p R W (p : prog K unit) m (Q : mem K -> Prop) : noalloc p -> wp R W p m (fun _ => Q) -> wpt R W (Tp p) m Q.
Proof. intros N H. destruct (wp_trace p R W _ m N H) as (l & m' & A & B & C). exists l, m'. split; [constructor; exact A|]. auto. Qed.
Lemma wpt_seq R W t1 t2 m (Q : mem K -> Prop) : wpt R W t1 m (fun m1 => wpt R W t2 m1 Q) -> wpt R W (Tseq t1 t2) m Q.
Proof.
  intros (l1 & m1 & A1 & B1 & l2 & m2 & A2 & B2 & C2). exists (l1 ++ l2), m2. split; [econstructor; eassumption|]. split; [apply inside_app; assumption|exact C2].
Qed.
Lemma wpt_mono (R W R' W' : addr -> Prop) t m (Q Q' : mem K -> Prop) : (forall a, R a -> R' a \/ W' a) -> (forall a, W a -> W' a) ->
  (forall m', Q m' -> Q' m') -> wpt R W t m Q -> wpt R' W' t m Q'.
Proof.
  intros H1 H2 H3 (l & m' & A & B & C). exists l, m'. split; [exact A|]. split; [|auto].
  intros a. destruct (B a) as [B1 B2]. split; intros H; [destruct (B1 H); auto|auto].
Qed.

Lemma wpt_list (R W : nat -> addr -> Prop) ts : forall k m (J : nat -> mem K -> Prop), J k m ->
  (forall i t m1, nth_error ts i = Some t -> J (k + i) m1 -> wpt (R (k + i)) (W (k + i)) t m1 (J (S (k + i)))) ->
  exists ls m', race_frees m ts ls m' /\ length ls = length ts /\ (forall i l, nth_error ls i = Some l -> inside (R (k + i)) (W (k + i)) l) /\ J (k + length ts) m'.
Proof.
  induction ts as [|t ts IH]; intros k m J HJ H.
  - exists [], m. split; [constructor|]. split; [reflexivity|]. split; [intros [|]; discriminate|]. cbn. rewrite Nat.add_0_r. exact HJ.
  - destruct (H 0 t m eq_refl) as (l & m1 & A & B & C); [rewrite Nat.add_0_r; exact HJ|]. rewrite Nat.add_0_r in B, C.
    destruct (IH (S k) m1 J C) as (ls & m' & A' & E' & B' & C').
    { intros i t' m2 Hi HJ'. replace (S k + i) with (k + S i) in * by lia. apply (H (S i) t' m2 Hi HJ'). }
    exists (l :: ls), m'. split; [econstructor; eassumption|]. split; [cbn; congruence|]. split.
    + intros [|i] l' Hl; cbn in Hl; [injection Hl as <-; rewrite Nat.add_0_r; exact B|]. replace (k + S i) with (S k + i) by lia. apply B', Hl.
    + cbn. replace (k + S (length ts)) with (S k + length ts) by lia. exact C'.
Qed.
Lemma fop_nth {A} (P : A -> A -> Prop) l : (forall i j x y, i < j -> nth_error l i = Some x -> nth_error l j = Some y -> P x y) -> ForallOrdPairs P l.
Proof.
  induction l as [|z l IH]; intros H; constructor.
  - apply Forall_forall. intros y Hy. apply In_nth_error in Hy as [j Hj]. apply (H 0 (S j) z y); [lia|reflexivity|exact Hj].
  - apply IH. intros i j x y Hij Hx Hy. apply (H (S i) (S j)); [lia|exact Hx|exact Hy].
Qed.

(** A loop whose iterations may be threads *)
Lemma wpt_loop (par : bool) (R W : nat -> addr -> Prop) (R' W' : addr -> Prop) ts m (J Q : nat -> mem K -> Prop) :
  J 0 m -> (forall i t m1, nth_error ts i = Some t -> J i m1 -> wpt (R i) (W i) t m1 (J (S i))) ->
  (forall i j a, i < length ts -> j < length ts -> i <> j -> W i a -> ~ R j a /\ ~ W j a) ->
  (forall i a, i < length ts -> R i a -> R' a \/ W' a) -> (forall i a, i < length ts -> W i a -> W' a) ->
  wpt R' W' (tloop par ts) m (J (length ts)).
Proof.
  intros H0 Hs Ha HR HW. destruct (wpt_list R W ts 0 m J H0) as (ls & m' & A & E & B & C); [intros; apply Hs; assumption|].
  destruct (tloop_rf m ts ls m' par A) as (l & A' & B').
  { intros _. apply fop_nth. intros i j x y Hij Hx Hy. assert (Hi : i < length ts) by (rewrite <- E; apply nth_error_Some; congruence).
    assert (Hj : j < length ts) by (rewrite <- E; apply nth_error_Some; congruence).
    apply (inside_free (R i) (W i) (R j) (W j)); [| |apply B, Hx|apply B, Hy].
    - intros a Hw. destruct (Ha i j a Hi Hj ltac:(lia) Hw). tauto.
    - intros a Hw. destruct (Ha j i a Hj Hi ltac:(lia) Hw). tauto. }
  exists l, m'. split; [exact A'|]. split; [|exact C]. intros a. split; intros Hin; destruct (B' _ Hin) as (l' & Hl' & Hx);
    apply In_nth_error in Hl' as [i Hi]; assert (Hlt : i < length ts) by (rewrite <- E; apply nth_error_Some; congruence); destruct (B i l' Hi a) as [B1 B2].
  - destruct (B1 Hx); [eapply HR; eassumption|right; eapply HW; eassumption].
  - eapply HW; [exact Hlt|]. apply B2, Hx.
Qed.
Lemma wpt_det R W t m (Q : mem K -> Prop) : wpt R W t m Q -> exists m', deterministic m t m' /\ Q m'.
Proof. intros (l & m' & A & B & C). exists m'. split; [eapply rf_det; exact A|exact C]. Qed.

(** ** Programs that do not allocate *)
Lemma na_bind {A B} (p : prog K A) (f : A -> prog K B) : noalloc p -> (forall a, noalloc (f a)) -> noalloc (bind p f).
Proof. induction p; cbn; intros Hp Hf; auto. Qed.
Lemma na_forS {S} (body : nat -> S -> prog K S) n : forall lo s, (forall i s, noalloc (body i s)) -> noalloc (forS lo n body s).
Proof. induction n; intros lo s H; cbn; [exact I|]. apply na_bind; [apply H|]. intros; apply IHn, H. Qed.
Lemma na_for (body : nat -> prog K unit) n lo : (forall i, noalloc (body i)) -> noalloc (for_ lo n body).
Proof. intros H. apply na_forS. intros; apply H. Qed.
Lemma na_assert b : noalloc (@passert K b).
Proof. destruct b; exact I. Qed.
Lemma na_lift {A} (r : res A) : noalloc (@lift K A r).
Proof. destruct r; exact I. Qed.
Lemma na_sget {A} (l : option (list A)) i : noalloc (@sget K A l i).
Proof. unfold sget. destruct l as [l|]; [|exact I]. destruct (nth_error l i); exact I. Qed.
End Wpt.

Lemma na_bindsub {K : fops} {A} (x : vec) n o (f : vec -> prog K A) : noalloc (f (subv x o n)) -> noalloc (bind (init_sub_avector x n o) f).
Proof. intros H. unfold init_sub_avector. unfold passert. destruct (o + n <=? vdim x); cbn; [exact H|exact I]. Qed.
Ltac na := repeat first [exact I | exact (fun _ => I) | apply na_bindsub | apply na_assert | apply na_lift | apply na_sget | apply na_bind; [|intros] | apply na_for; intros | apply na_forS; intros | progress intros].

Section P7.
Context {K : fops} {G : ofops} (L : ring_laws K).
Add Ring KringCb7 : (rl_ring K L).
Implicit Types (m : mem K) (cb c s : cbasis G) (X Y B : nat -> K).

Lemma na_mvm al b A x y : noalloc (@mvm_amatrix_avector K al b A x y).
Proof. unfold mvm_amatrix_avector, addevaltrans_amatrix_avector, addeval_amatrix_avector. destruct b; na. Qed.
Lemma na_clear x : noalloc (@clear_avector K x).
Proof. unfold clear_avector. na. Qed.
Lemma na_initsub x n o : noalloc (@init_sub_avector K x n o).
Proof. unfold init_sub_avector. na. Qed.
Lemma na_uninit_sub v o n : noalloc (@uninit_avector K (subv v o n)).
Proof. exact I. Qed.
Lemma na_gather idx o n x y : noalloc (@cb_gather K idx o n x y).
Proof. unfold cb_gather. na. Qed.
Lemma na_scatter idx o n x y : noalloc (@cb_scatter K idx o n x y).
Proof. unfold cb_scatter. na. Qed.
Lemma na_subok xt l o k : noalloc (@subvecs_ok K G xt l o k).
Proof. unfold subvecs_ok, sons. na. Qed.
Lemma nth_combine {A C : Type} (l : list A) : forall (l' : list C) i, nth_error (combine l l') i =
  match nth_error l i, nth_error l' i with Some a, Some b => Some (a, b) | _, _ => None end.
Proof.
  induction l as [|a l IH]; intros [|b l'] [|i]; cbn; try reflexivity; [destruct (nth_error l i); reflexivity|apply IH].
Qed.

(** ** The array of subvectors *)
Lemma subvecs_nth xt l : forall off i s, nth_error l i = Some s -> nth_error (subvecs (G:=G) xt l off) i = Some (subv xt (off + nsum i (at_ cb_ktree l)) (cb_ktree s)).
Proof.
  induction l as [|c l IH]; intros off [|i] s H; try discriminate H; cbn in H.
  - injection H as ->. cbn. rewrite Nat.add_0_r. reflexivity.
  - cbn [subvecs nth_error]. rewrite (IH _ i s H). do 2 f_equal. rewrite nsum_head. unfold at_. cbn [map nth]. lia.
Qed.
Lemma subvecs_len xt l : forall off, length (subvecs (G:=G) xt l off) = length l.
Proof. induction l; intros; cbn; [reflexivity|]. rewrite IHl. reflexivity. Qed.

(** The list of recursive calls *)
Definition calls (f : cbasis G -> vec -> thr K) := fix go (l : list (cbasis G)) (vs : list vec) : list (thr K) :=
  match l, vs with
  | s :: l', v :: vs' => f s v :: go l' vs'
  | _, _ => []
  end.
Lemma calls_nth f l : forall vs i t, length vs = length l -> nth_error (calls f l vs) i = Some t ->
  exists s v, nth_error l i = Some s /\ nth_error vs i = Some v /\ t = f s v.
Proof.
  induction l as [|s l IH]; intros [|v vs] [|i] t E H; try discriminate E; try discriminate H; cbn in H.
  - injection H as <-. exists s, v. auto.
  - cbn in E. apply IH in H; [exact H|lia].
Qed.
Lemma calls_len f l : forall vs, length vs = length l -> length (calls f l vs) = length l.
Proof. induction l as [|s l IH]; intros [|v vs] E; try discriminate E; cbn; [reflexivity|]. rewrite IH by (cbn in E; lia). reflexivity. Qed.

Lemma wp_subvecs_ok R W xt cb m (Q : unit -> mem K -> Prop) : cbok cb -> cb_son cb <> [] -> vdim xt = cb_ktree cb -> Q tt m ->
  wp R W (subvecs_ok xt (cb_son cb) (cb_k cb) (cb_ktree cb)) m Q.
Proof.
  intros Hok Hn Ex HQ. unfold subvecs_ok, sons. apply wp_bind.
  apply (wp_forS (fun i off m1 => off = cb_k cb + nsum i (at_ cb_ktree (cb_son cb)) /\ m1 = m)).
  - split; [cbn [nsum]; lia|reflexivity].
  - intros i off m1 [_ Hi] (-> & ->). cbn in Hi. destruct (nth_ex (cb_son cb) i Hi) as [s Hsi]. rewrite (sget_some _ _ _ Hsi). cbn [bind].
    destruct (son_room cb i s Hok Hsi) as [_ Hr]. apply wp_bind, wp_init_sub_avector; [lia|]. cbn [wp nsum]. rewrite (at_nth _ _ _ _ Hsi). split; [lia|reflexivity].
  - intros off m1 (-> & ->). pose proof (cbok_ktree_node cb Hok Hn) as Ek. cbn [Nat.add]. unfold passert.
    destruct (Nat.eqb_spec (cb_k cb + nsum (length (cb_son cb)) (at_ cb_ktree (cb_son cb))) (cb_ktree cb)); [exact HQ|lia].
Qed.

Lemma nsum_order (f : nat -> nat) i j : i < j -> nsum i f + f i <= nsum j f.
Proof. intros H. induction j; [lia|]. cbn [nsum]. destruct (Nat.eq_dec i j) as [->|]; [lia|]. specialize (IHj ltac:(lia)). lia. Qed.

(** ** Forward transformation *)
Lemma wpt_forward idx cb : forall x xt ip X pd m,
  cbok cb -> cbplaced cb -> cbinit m cb -> vdim xt = cb_ktree cb -> valloc m xt ->
  perm_src idx m x (cb_off cb) (cb_size cb) ip X -> disj (inv x) (inv xt) -> disj (incb cb) (inv xt) ->
  wpt (fun a => incb cb a \/ inv x a) (inv xt) (forward_parallel_clusterbasis_avector idx cb x xt pd) m
    (fun m' => exists Y, vval m' xt Y /\ fwd_of (cbmat m) cb X Y /\ keeps (inv xt) m m').
Proof.
  induction cb as [cb IH] using cb_rect'. intros x xt ip X pd m Hok Hpl Hini Ex Ha Hs D1 D2.
  destruct cb as [t k kt kb V E l Z] eqn:Ecb. cbn [forward_parallel_clusterbasis_avector].
  assert (Hkk : k <= kt) by exact (cbok_k_ktree _ Hok). cbn [cb_ktree] in Ex.
  set (R := fun a => incb (CB t k kt kb V E l Z) a \/ inv x a).
  assert (R1 : rdok R (inv xt) (incb (CB t k kt kb V E l Z))) by (intros a Ha'; left; left; exact Ha').
  assert (R2 : rdok R (inv xt) (inv x)) by (intros a Ha'; left; right; exact Ha').
  assert (W1 : wrok (inv xt) (inv xt)) by (intros a Ha'; exact Ha').
  apply wpt_seq. apply wpt_p; [na; apply na_clear|]. wstep. apply wp_bind, wp_init_sub_avector; [lia|].
  apply wp_clear_avector; [apply valloc_subv; [exact Ha|lia]|apply inv_subv_w; [lia|exact W1]|].
  intros m0 Hc0 Hk0. assert (K0 : keeps (inv xt) m m0) by (eapply keeps_subv; [|exact Hk0]; lia).
  assert (Ha0 : valloc m0 xt) by (eapply valloc_sub_keeps; [|exact Ha|exact Hc0|exact Hk0]; lia).
  change {| vblk := vblk xt; voff := voff xt + 0; vdim := k; vown := false |} with (subv xt 0 k).
  destruct l as [|s0 l0].
  - assert (E0 : kt = k + csz t /\ kb = k + csz t) by (inversion Hok; subst; [auto|congruence]). destruct E0 as [-> _].
    apply wpt_p; [na; first [apply na_gather|apply na_mvm]|].
    eapply (wp_forward_leaf L) with (m0 := m); [exact Hok| |exact Ex|exact Ha0|eapply perm_src_keeps; [exact Hs|exact K0|exact D1]|exact Hc0|exact D1| | |exact R2|exact W1|].
    + eapply mval_keeps; [eapply cbinit_V; exact Hini|exact K0|]. intros a Ha'. apply D2. constructor. exact Ha'.
    + intros a Ha'. apply D2. constructor. exact Ha'.
    + intros a Ha'. apply R1. constructor. exact Ha'.
    + intros m' Y HY HF Hk'. exists Y. split; [exact HY|]. split; [exact HF|eapply keeps_trans; [exact K0|exact Hk']].
  - remember (s0 :: l0) as l eqn:El. assert (Hln : l <> []) by (subst l; discriminate).
    pose (cb' := CB t k kt kb V E l Z). fold cb' in Hok, Hpl, Hini, D2, R1, IH, Hs. fold cb'. subst R. fold cb' in R1, R2 |- *.
    set (R := fun a => incb cb' a \/ inv x a) in *.
    pose (sub := fun i => subv xt (k + nsum i (at_ cb_ktree l)) (at_ cb_ktree l i)).
    assert (Esub : forall i s, nth_error l i = Some s -> sub i = subv xt (k + nsum i (at_ cb_ktree l)) (cb_ktree s)) by (intros i s H; unfold sub; rewrite (at_nth _ _ _ _ H); reflexivity).
    assert (Hroom : forall i s, nth_error l i = Some s -> nsum i (at_ cb_size l) + cb_size s <= csz t /\ k + nsum i (at_ cb_ktree l) + cb_ktree s <= kt) by (intros i s Hsi; apply (son_room cb' i s Hok Hsi)).
    pose (J := fun i m1 => keeps (inv xt) m m1 /\ valloc m1 xt /\ (forall q, q < k -> get m1 (va xt q) = Val f0) /\
      (forall j s, j < i -> nth_error l j = Some s -> exists Ys, vval m1 (sub j) Ys /\ fwd_of (cbmat m) s (shiftv X (nsum j (at_ cb_size l))) Ys)).
    apply wpt_seq, wpt_p; [apply na_subok|]. apply (wp_subvecs_ok _ _ xt cb' _ _ Hok Hln Ex).
    apply wpt_seq. pose (ts := calls (fun s v => forward_parallel_clusterbasis_avector idx s x v (pd - 1)) l (subvecs xt l k)).
    match goal with |- wpt _ _ (tloop _ ?x) _ _ => replace x with ts by (unfold ts; rewrite El; reflexivity) end. assert (Ets : length ts = length l) by (apply calls_len, subvecs_len).
    eapply wpt_mono; [| | |apply (wpt_loop (0 <? pd) (fun i a => (exists s, nth_error l i = Some s /\ incb s a) \/ inv x a) (fun i => inv (sub i)) R (inv xt) ts m0 J J)].
    + intros a H; left; exact H.
    + auto.
    + rewrite Ets. intros m1 (K1 & Ha1 & Z1 & S1). apply wpt_p.
      { unfold sons. apply na_forS. intros i [].
        unfold sget. rewrite nth_combine. destruct (nth_error l i) as [s|] eqn:Es; [|exact I].
        rewrite (subvecs_nth xt l k i s Es). cbn [bind fst snd]. apply na_bind; [apply na_mvm|]. intros _. exact I. }
      unfold sons. rewrite combine_length, subvecs_len, Nat.min_id. eapply wp_conseq.
      { apply (wp_forS (fun i _ m2 => fwd_inv m m2 cb' (va xt) X i /\ keeps (inv xt) m m2 /\ keeps (inv (subv xt 0 k)) m1 m2)).
        - split; [|split; [exact K1|apply keeps_refl]]. apply fwd_inv_0. exact Z1.
        - intros i [] m2 [_ Hi] (HI & K2 & Kc). cbn in Hi. destruct (nth_ex l i Hi) as [s Hsi]. unfold sget. rewrite nth_combine, Hsi, (subvecs_nth xt l k i s Hsi). cbn [bind fst snd].
          destruct (nth_in _ _ _ Hsi) as [_ Hin]. destruct (cbok_son cb' s Hok Hin) as (Hoks & _ & _). destruct (Hroom i s Hsi) as [Hr1 Hr2].
          destruct (S1 i s Hi Hsi) as (Ys & HYs & HFs). rewrite (Esub i s Hsi) in HYs. apply wp_bind.
          eapply (wp_forward_son L cb' i s _ _ _ _ xt X m m2 m2 Ys); [exact Hok|exact Hsi|exact Ex|exact Hini|exact D2|exact K2|exact HI|reflexivity| | |apply keeps_refl|exact HFs|exact R1|exact W1|].
          + exists (cb_ktree s). split; [reflexivity|]. pose proof (cbok_k_ktree s Hoks). lia.
          + eapply vval_keeps; [exact HYs|exact Kc|]. apply subv_sep. cbn [cb_k cb_son cb']. lia.
          + intros m3 HI3 Hk3. cbn [uninit_avector vown subv bind wp]. split; [exact HI3|]. split; [|eapply keeps_trans; [exact Kc|exact Hk3]].
            eapply keeps_trans; [exact K2|eapply keeps_subv; [|exact Hk3]; lia].
        - intros s2 m2 H2. exact H2. }
      intros s2 m2 (HI & K2 & _). cbn [Nat.add] in HI. change l with (cb_son cb') in HI. destruct (fwd_inv_end L m m2 cb' (va xt) X Hok Hln HI) as (Y & HY & HF).
      exists Y. split; [intros o Ho; apply HY; cbn [cb_ktree cb']; lia|]. split; assumption.
    + split; [exact K0|]. split; [exact Ha0|]. split; [|intros; lia]. intros q Hq. specialize (Hc0 q). rewrite va_subv0 in Hc0. apply Hc0. exact Hq.
    + intros i th m1 Hth (K1 & Ha1 & Z1 & S1). apply calls_nth in Hth; [|apply subvecs_len]. destruct Hth as (s & v & Hsi & Hv & ->).
      rewrite (subvecs_nth xt l k i s Hsi) in Hv. injection Hv as <-. rewrite (Esub i s Hsi). destruct (Hroom i s Hsi) as [Hr1 Hr2].
      destruct (nth_in _ _ _ Hsi) as [Hi Hin]. destruct (cbok_son cb' s Hok Hin) as (Hoks & _ & _). destruct (placed_son cb' i s Hpl Hsi) as [Eo Hpls].
      eapply wpt_mono; [| | |eapply (IH s Hin x (subv xt (k + nsum i (at_ cb_ktree l)) (cb_ktree s)) (fun p => ip (nsum i (at_ cb_size l) + p)) (shiftv X (nsum i (at_ cb_size l))))].
      * intros a [H|H]; [left; left; exists s; auto|left; right; exact H].
      * auto.
      * cbv beta. intros m2 (Ys & HYs & HFs & Hk2). unfold J. split; [eapply keeps_trans; [exact K1|eapply keeps_subv; [|exact Hk2]; lia]|]. split; [|split].
        -- eapply valloc_sub_keeps; [|exact Ha1|exact HYs|exact Hk2]. lia.
        -- intros q Hq. rewrite (proj2 Hk2) by (apply notin_subv; lia). apply Z1, Hq.
        -- intros j s' Hj Hs'. destruct (Nat.eq_dec j i) as [->|Hne].
           ++ assert (s' = s) by congruence. subst s'. exists Ys. rewrite (Esub i s Hsi). split; [exact HYs|].
              eapply fwd_of_ext; [exact Hoks|exact HFs| |reflexivity|reflexivity]. intros o r c Hc p q _ _.
              eapply cbmat_keeps; [exact K1|]. intros a Ha'. apply D2. apply (incb_son cb' s a Hin). eapply incb_node; [exact Hc|exact Ha'].
           ++ destruct (S1 j s' ltac:(lia) Hs') as (Y' & HY' & HF'). exists Y'. split; [|exact HF']. eapply vval_keeps; [exact HY'|exact Hk2|].
              rewrite (Esub j s' Hs'). apply subv_sep. pose proof (nsum_order (at_ cb_ktree l) j i ltac:(lia)) as Ho. rewrite (at_nth _ _ _ _ Hs') in Ho. lia.
      * exact Hoks.
      * exact Hpls.
      * eapply cbinit_keeps; [eapply cbinit_son; [exact Hini|exact Hin]|exact K1|]. intros a Ha'. apply D2. eapply incb_son; eauto.
      * reflexivity.
      * apply valloc_subv; [exact Ha1|lia].
      * intros p Hp. rewrite Eo. destruct (perm_src_keeps _ _ _ _ _ _ _ _ _ Hs K1 D1 (nsum i (at_ cb_size l) + p)) as (B1 & B2 & B3); [change (cb_size cb') with (csz t); lia|].
        cbn [cb_son cb']. rewrite <- Nat.add_assoc. auto.
      * apply (subv_disj x); [lia|exact D1].
      * apply (subv_disj x); [lia|]. intros a Ha'. apply D2. eapply incb_son; eauto.
    + intros i j a Hi Hj Hij Hw. rewrite Ets in Hi, Hj. destruct (nth_ex l i Hi) as [si Hsi]. destruct (nth_ex l j Hj) as [sj Hsj].
      destruct (Hroom i si Hsi) as [_ Hri]. destruct (Hroom j sj Hsj) as [_ Hrj]. split.
      * intros [(s & Es & Hb)|Hb]; rewrite (Esub i si Hsi) in Hw.
        -- apply (D2 a); [eapply incb_son; [eapply nth_error_In; exact Es|exact Hb]|]. eapply inv_subv; [|exact Hw]. lia.
        -- apply (D1 a Hb). eapply inv_subv; [|exact Hw]. lia.
      * rewrite (Esub i si Hsi) in Hw. rewrite (Esub j sj Hsj). intros Hb. revert Hb. assert (HD : disj (inv (subv xt (k + nsum i (at_ cb_ktree l)) (cb_ktree si))) (inv (subv xt (k + nsum j (at_ cb_ktree l)) (cb_ktree sj)))).
        { apply subv_sep. destruct (Nat.lt_total i j) as [Hl|[Hl|Hl]]; [|lia|].
          - pose proof (nsum_order (at_ cb_ktree l) i j Hl) as Ho. rewrite (at_nth _ _ _ _ Hsi) in Ho. lia.
          - pose proof (nsum_order (at_ cb_ktree l) j i Hl) as Ho. rewrite (at_nth _ _ _ _ Hsj) in Ho. lia. }
        apply (HD a Hw).
    + intros i a Hi [(s & Es & Hb)|Hb]; left; [left; eapply incb_son; [eapply nth_error_In; exact Es|exact Hb]|right; exact Hb].
    + intros i a Hi Hw. rewrite Ets in Hi. destruct (nth_ex l i Hi) as [si Hsi]. rewrite (Esub i si Hsi) in Hw. destruct (Hroom i si Hsi) as [_ Hri]. eapply inv_subv; [|exact Hw]. lia.
Qed.

(** ** Backward transformation *)
Lemma wpt_backward idx cb : forall yt y ip Y B pd m,
  cbok cb -> cbplaced cb -> cbinit m cb -> vdim yt = cb_ktree cb -> vval m yt Y ->
  perm_trg idx m y (cb_off cb) (cb_size cb) ip B -> injn ip (cb_size cb) ->
  disj (inv yt) (cells (fun p => va y (ip p)) (cb_size cb)) -> disj (incb cb) (inv yt) -> disj (incb cb) (cells (fun p => va y (ip p)) (cb_size cb)) ->
  wpt (incb cb) (fun a => inv yt a \/ cells (fun p => va y (ip p)) (cb_size cb) a) (backward_parallel_clusterbasis_avector idx cb yt y pd) m
    (fun m' => (forall p, p < cb_size cb -> get m' (va y (ip p)) = Val (B p + bwd_of (cbmat m) cb Y p)%F) /\
       (exists Y', vval m' yt Y') /\ keeps (fun a => inv yt a \/ cells (fun p => va y (ip p)) (cb_size cb) a) m m').
Proof.
  induction cb as [cb IH] using cb_rect'. intros yt y ip Y B pd m Hok Hpl Hini Ex HY Ht Hinj D1 D2 D3.
  destruct cb as [t k kt kb V E l Z] eqn:Ecb. cbn [backward_parallel_clusterbasis_avector].
  assert (Hkk : k <= kt) by exact (cbok_k_ktree _ Hok). cbn [cb_ktree] in Ex.
  apply wpt_seq. apply wpt_p; [na|]. wstep. apply wp_bind, wp_init_sub_avector; [lia|]. cbn [wp].
  change {| vblk := vblk yt; voff := voff yt + 0; vdim := k; vown := false |} with (subv yt 0 k).
  change (cb_size (CB t k kt kb V E l Z)) with (csz t) in *.
  pose (out := fun p => va y (ip p)). fold out in D1, D3 |- *.
  destruct l as [|s0 l0].
  - destruct (cbok_leaf_inv _ _ _ _ _ _ _ Hok) as (-> & _).
    apply wpt_p; [na; first [apply na_scatter|apply na_mvm]|].
    eapply (wp_backward_leaf L) with (m0 := m); [exact Hok|eapply cbinit_V; exact Hini|exact Ex|exact HY|exact Ht|exact Hinj|exact D1| | | | |].
    + intros a Ha'. apply D2. constructor. exact Ha'.
    + intros a Ha'. left. constructor. exact Ha'.
    + intros a Ha'. left. exact Ha'.
    + intros a Ha'. right. exact Ha'.
    + intros m' HY' HF Hk'. split; [exact HY'|]. split; [exact HF|exact Hk'].
  - remember (s0 :: l0) as l eqn:El. assert (Hln : l <> []) by (subst l; discriminate).
    pose (cb' := CB t k kt kb V E l Z). fold cb' in Hok, Hpl, Hini, D2, D3, IH, Ht. fold cb'.
    pose proof (cbok_size cb' Hok Hln) as Esz. change (csz t = nsum (length l) (at_ cb_size l)) in Esz.
    pose proof (cbok_ktree_node cb' Hok Hln) as Ekt. change (kt = k + nsum (length l) (at_ cb_ktree l)) in Ekt.
    pose (W2' := fun a => inv yt a \/ cells out (csz t) a). fold W2'.
    assert (D4 : disj (incb cb') W2') by (intros a Hx [Hy|Hy]; [apply (D2 a Hx Hy)|apply (D3 a Hx Hy)]).
    pose (sub := fun i => subv yt (k + nsum i (at_ cb_ktree l)) (at_ cb_ktree l i)).
    pose (oc := fun i => cells (fun p => out (nsum i (at_ cb_size l) + p)) (at_ cb_size l i)).
    assert (Esub : forall i s, nth_error l i = Some s -> sub i = subv yt (k + nsum i (at_ cb_ktree l)) (cb_ktree s)) by (intros i s H; unfold sub; rewrite (at_nth _ _ _ _ H); reflexivity).
    assert (Eoc : forall i s, nth_error l i = Some s -> oc i = cells (fun p => out (nsum i (at_ cb_size l) + p)) (cb_size s)) by (intros i s H; unfold oc; rewrite (at_nth _ _ _ _ H); reflexivity).
    assert (Hroom : forall i s, nth_error l i = Some s -> nsum i (at_ cb_size l) + cb_size s <= csz t /\ k + nsum i (at_ cb_ktree l) + cb_ktree s <= kt) by (intros i s Hsi; apply (son_room cb' i s Hok Hsi)).
    apply wpt_seq, wpt_p; [apply na_subok|]. apply (wp_subvecs_ok _ _ yt cb' _ _ Hok Hln Ex).
    pose (ts := calls (fun s v => Tseq (Tp (mvm_amatrix_avector f1 false (cb_E s) (subv yt 0 k) v))
                        (Tseq (backward_parallel_clusterbasis_avector idx s v y (pd - 1)) (Tp (uninit_avector v)))) l (subvecs yt l k)).
    match goal with |- wpt _ _ (tloop _ ?x) _ _ => replace x with ts by (unfold ts; rewrite El; reflexivity) end.
    assert (Ets : length ts = length l) by (apply calls_len, subvecs_len).
    pose (J := fun i m1 => bwd_inv (cbmat m) m1 cb' (va yt) out Y B i /\ keeps W2' m m1).
    eapply wpt_mono; [| | |apply (wpt_loop (0 <? pd) (fun i a => incb cb' a \/ inv (subv yt 0 k) a) (fun i a => inv (sub i) a \/ oc i a) (incb cb') W2' ts m J J)].
    + intros a H; left; exact H.
    + auto.
    + rewrite Ets. intros m1 ((I1 & I2 & I3 & I4 & I5) & K1). cbn [cb_k cb_son cb_ktree cb'] in I1, I2, I3, I4, I5. split; [|split; [|exact K1]].
      * intros p Hp. apply I4. lia.
      * exists (fun o => match get m1 (va yt o) with Val v => v | _ => f0 end). intros o Ho. destruct (I3 o) as [v Hv]; [lia|]. rewrite Hv. reflexivity.
    + split; [|apply keeps_refl]. apply bwd_inv_0; [intros o Ho; apply HY; cbn in Ho; lia|exact Hkk|]. intros p Hp. apply Ht. exact Hp.
    + intros i th m1 Hth (HI & K1). apply calls_nth in Hth; [|apply subvecs_len]. destruct Hth as (s & v & Hsi & Hv & ->).
      rewrite (subvecs_nth yt l k i s Hsi) in Hv. injection Hv as <-. rewrite (Esub i s Hsi), (Eoc i s Hsi). destruct (Hroom i s Hsi) as [Hr1 Hr2].
      destruct (nth_in _ _ _ Hsi) as [Hi Hin]. destruct (cbok_son cb' s Hok Hin) as (Hoks & _ & _). destruct (placed_son cb' i s Hpl Hsi) as [Eo Hpls].
      pose proof (cbok_k_ktree s Hoks) as Hks. assert (D4s : disj (incb s) W2') by (apply (son_disj _ cb' s Hin D4)).
      destruct HI as (I1 & I2 & I3 & I4 & I5). cbn [cb_k cb_son cb_ktree cb'] in I1, I2, I3, I4, I5. change (cb_size cb') with (csz t) in I5.
      apply wpt_seq, wpt_p; [apply na_mvm|].
      eapply (wp_backward_son L cb' i s _ _ _ _ yt Y m m1); [exact Hok|exact Hsi|exact Ex| | | | |reflexivity| | | | |].
      { eapply mval_keeps; [exact (cbinit_E m cb' s Hini Hin)|exact K1|]. intros a Ha'. apply D4. eapply incb_E; eauto. }
      { intros a Ha'. apply D2. eapply incb_E; eauto. }
      { exact I1. }
      { intros o Ho. cbn [cb_k cb_son cb']. apply I2. lia. }
      { exists (cb_ktree s). split; [reflexivity|lia]. }
      { intros a Ha'. left. left. eapply incb_E; eauto. }
      { intros a Ha'. left. right. exact Ha'. }
      { intros a Ha'. left. exact Ha'. }
      intros m2 Hv2 Hk2. cbn [cb_k cb_son cb'] in Hv2, Hk2. set (off := k + nsum i (at_ cb_ktree l)) in *. set (po := nsum i (at_ cb_size l)) in *.
      assert (K2 : keeps W2' m m2) by (eapply keeps_trans; [exact K1|]; eapply keeps_mono; [|exact Hk2]; intros a Ha'; left; eapply inv_subv; [|exact Ha']; lia).
      assert (N2 : forall p, p < csz t -> get m2 (out p) = get m1 (out p)).
      { intros p Hp. apply (proj2 Hk2). intros Hb. apply (D1 (out p)); [eapply inv_subv; [|exact Hb]; lia|exists p; auto]. }
      apply wpt_seq.
      eapply wpt_mono; [| | |eapply (IH s Hin (subv yt off (cb_ktree s)) y (fun p => ip (po + p)) (trans_coef m cb' i s Y) (shiftv B po))].
      * intros a H. left. left. eapply incb_son; eauto.
      * intros a [H|H]; [left|right]; exact H.
      * cbv beta. intros m3 (Hg3 & [Y3 HY3] & Hk3). apply wpt_p; [exact I|]. cbn [uninit_avector vown subv wp]. unfold J.
        assert (K3 : keeps W2' m2 m3). { eapply keeps_mono; [|exact Hk3]. intros a [Hb|Hb]; [left; eapply inv_subv; [|exact Hb]; lia|right; eapply (cells_mono out _ (cb_size s) po); [lia|exact Hb]]. }
        split; [|eapply keeps_trans; [exact K2|exact K3]].
        eapply (bwd_inv_step _ m1 m3 cb' (va yt) out Y B i s Hok); [unfold bwd_inv; auto|exact Hsi| | | |]; cbn [cb_k cb_son cb_ktree cb']; fold off po.
        -- intros o Ho Hc. rewrite (proj2 Hk3).
           ++ apply (proj2 Hk2). apply notin_subv. lia.
           ++ intros [Hb|Hb]; [revert Hb; apply notin_subv; lia|]. apply (D1 (va yt o)); [exists o; split; [lia|reflexivity]|]. eapply (cells_mono out _ (cb_size s) po); [lia|exact Hb].
        -- intros o Ho. exists (Y3 o). specialize (HY3 o Ho). rewrite va_subv in HY3. exact HY3.
        -- intros p Hp Hc. rewrite (proj2 Hk3); [apply N2, Hp|]. intros [Hb|Hb].
           ++ apply (D1 (out p)); [eapply inv_subv; [|exact Hb]; lia|exists p; auto].
           ++ revert Hb. apply (cells_sep out (csz t)); [intros a b Ha Hb E'; apply va_inj in E'; apply Hinj; auto|lia|exact Hp|exact Hc].
        -- intros p Hp. change (out (po + p)) with (va y (ip (po + p))). rewrite (Hg3 p Hp). f_equal. f_equal.
           pose proof (bwd_transfer L m cb' Y i s p Hok Hsi Hp) as HT. cbn [cb_k cb_son cb'] in HT. fold po in HT. etransitivity; [|symmetry; exact HT].
           apply bwd_ext; [exact Hoks|exact Hp| |reflexivity].
           apply (cbmat_son_keeps m m2 cb' s W2' Hin K2 D4).
      * exact Hoks.
      * exact Hpls.
      * eapply cbinit_keeps; [eapply cbinit_son; [exact Hini|exact Hin]|exact K2|exact D4s].
      * reflexivity.
      * exact Hv2.
      * intros p Hp. rewrite Eo. cbn [cb_son cb']. fold po. destruct (Ht (po + p)) as (B1 & B2 & B3); [lia|]. rewrite <- Nat.add_assoc.
        split; [exact B1|]. split; [exact B2|]. change (va y (ip (po + p))) with (out (po + p)). rewrite N2 by lia. apply I5. lia.
      * intros p q Hp Hq Eq. apply Hinj in Eq; lia.
      * apply disj_subv; [lia|]. intros a Ha' Hb. apply (D1 a Ha'). eapply (cells_mono out _ (cb_size s) po); [lia|exact Hb].
      * apply (subv_disj yt); [lia|]. intros a Ha' Hb. apply (D4s a Ha'). left. exact Hb.
      * intros a Ha' Hb. apply (D4s a Ha'). right. eapply (cells_mono out _ (cb_size s) po); [lia|exact Hb].
    + intros i j a Hi Hj Hij Hw. rewrite Ets in Hi, Hj. destruct (nth_ex l i Hi) as [si Hsi]. destruct (nth_ex l j Hj) as [sj Hsj].
      destruct (Hroom i si Hsi) as [Hri' Hri]. destruct (Hroom j sj Hsj) as [Hrj' Hrj]. rewrite (Esub i si Hsi), (Eoc i si Hsi) in Hw. rewrite (Esub j sj Hsj), (Eoc j sj Hsj).
      assert (Hc : forall si' : cbasis G, cells (fun p => out (nsum i (at_ cb_size l) + p)) (cb_size si') a -> nsum i (at_ cb_size l) + cb_size si' <= csz t -> cells out (csz t) a)
        by (intros si' Hb Hle; eapply (cells_mono out _ (cb_size si') (nsum i (at_ cb_size l))); [exact Hle|exact Hb]).
      split.
      * intros [Hb|Hb]; destruct Hw as [Hw|Hw].
        -- apply (D4 a Hb). left. eapply inv_subv; [|exact Hw]. lia.
        -- apply (D4 a Hb). right. eapply Hc; [exact Hw|lia].
        -- revert Hw Hb. assert (HD : disj (inv (subv yt (k + nsum i (at_ cb_ktree l)) (cb_ktree si))) (inv (subv yt 0 k))) by (apply subv_sep; lia). intros Hw Hb. exact (HD a Hw Hb).
        -- apply (D1 a); [eapply inv_subv; [|exact Hb]; lia|]. eapply Hc; [exact Hw|lia].
      * assert (Hcase : (k + nsum i (at_ cb_ktree l) + cb_ktree si <= k + nsum j (at_ cb_ktree l) /\ nsum i (at_ cb_size l) + cb_size si <= nsum j (at_ cb_size l)) \/
                        (k + nsum j (at_ cb_ktree l) + cb_ktree sj <= k + nsum i (at_ cb_ktree l) /\ nsum j (at_ cb_size l) + cb_size sj <= nsum i (at_ cb_size l))).
        { destruct (Nat.lt_total i j) as [Hl|[Hl|Hl]]; [|lia|].
          - left. pose proof (nsum_order (at_ cb_ktree l) i j Hl) as Ho. pose proof (nsum_order (at_ cb_size l) i j Hl) as Ho'. rewrite (at_nth _ _ _ _ Hsi) in Ho; rewrite (at_nth _ _ _ _ Hsi) in Ho'. lia.
          - right. pose proof (nsum_order (at_ cb_ktree l) j i Hl) as Ho. pose proof (nsum_order (at_ cb_size l) j i Hl) as Ho'. rewrite (at_nth _ _ _ _ Hsj) in Ho; rewrite (at_nth _ _ _ _ Hsj) in Ho'. lia. }
        intros [Hb|Hb]; destruct Hw as [Hw|Hw].
        -- assert (HD : disj (inv (subv yt (k + nsum i (at_ cb_ktree l)) (cb_ktree si))) (inv (subv yt (k + nsum j (at_ cb_ktree l)) (cb_ktree sj)))) by (apply subv_sep; lia). exact (HD a Hw Hb).
        -- apply (D1 a); [eapply inv_subv; [|exact Hb]; lia|]. eapply Hc; [exact Hw|lia].
        -- apply (D1 a); [eapply inv_subv; [|exact Hw]; lia|]. eapply (cells_mono out _ (cb_size sj) (nsum j (at_ cb_size l))); [lia|exact Hb].
        -- destruct Hw as (p & Hp & ->). revert Hb. apply (cells_sep out (csz t)); [intros a b Ha Hb E'; apply va_inj in E'; apply Hinj; auto|lia|lia|lia].
    + intros i a Hi [Hb|Hb]; [left; exact Hb|right; left; eapply inv_subv; [|exact Hb]; lia].
    + intros i a Hi Hw. rewrite Ets in Hi. destruct (nth_ex l i Hi) as [si Hsi]. rewrite (Esub i si Hsi), (Eoc i si Hsi) in Hw. destruct (Hroom i si Hsi) as [Hri' Hri].
      destruct Hw as [Hw|Hw]; [left; eapply inv_subv; [|exact Hw]; lia|right; eapply (cells_mono out _ (cb_size si) (nsum i (at_ cb_size l))); [lia|exact Hw]].
Qed.
End P7.
