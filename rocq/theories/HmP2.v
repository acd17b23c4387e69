(** * Proofs about H-matrices: the adjoint product and products with permutations *)
From Coq Require Import Arith Lia List Bool Ring Permutation.
From Verif Require Import Fld Ord Prog Arr View Spec Loop Cluster Block Avector AvectorP Amatrix AmatrixP AmatrixP2 Norm NormP
  Rkmatrix RkSpec RkP Hmatrix HmSpec HmP.
Import ListNotations.

(** An injective map of a finite set into itself is onto. *)
Lemma inj_surj n (g : nat -> nat) : (forall i, i < n -> g i < n) -> (forall i j, i < n -> j < n -> g i = g j -> i = j) ->
  Permutation (map g (seq 0 n)) (seq 0 n).
Proof.
  intros H1 H2. apply NoDup_Permutation_bis.
  - assert (H : forall l, NoDup l -> (forall i, In i l -> i < n) -> NoDup (map g l)).
    { induction l as [|a l IH]; intros Hn Hl; cbn; [constructor|]. inversion_clear Hn as [|? ? Ha Hn']. constructor.
      - intros Hin. apply in_map_iff in Hin. destruct Hin as (b & E & Hb). apply Ha.
        rewrite (H2 a b); auto; apply Hl; cbn; auto.
      - apply IH; [exact Hn'|]. intros i Hi. apply Hl. right. exact Hi. }
    apply H; [apply seq_NoDup|]. intros i Hi. apply in_seq in Hi. lia.
  - rewrite map_length, !seq_length. lia.
  - intros a Ha. apply in_map_iff in Ha. destruct Ha as (b & <- & Hb). apply in_seq in Hb. apply in_seq.
    pose proof (H1 b). lia.
Qed.
Lemma perm_onto n (g : nat -> nat) : (forall i, i < n -> g i < n) -> (forall i j, i < n -> j < n -> g i = g j -> i = j) ->
  forall k, k < n -> exists i, i < n /\ g i = k.
Proof.
  intros H1 H2 k Hk. pose proof (inj_surj n g H1 H2) as P.
  assert (Hin : In k (map g (seq 0 n))).
  { eapply Permutation_in; [apply Permutation_sym; exact P|]. apply in_seq. lia. }
  apply in_map_iff in Hin. destruct Hin as (i & E & Hi). apply in_seq in Hi. exists i. split; [lia|exact E].
Qed.

Section HmP2.
Context {K : fops} {G : ofops} (L : ring_laws K).
Add Ring KringHm2 : (rl_ring K L).
Implicit Types (m : mem K) (R W : addr -> Prop) (h s : hmatrix G) (x y : vec) (D : nat -> nat -> K).

Fixpoint lsum (l : list K) : K := match l with [] => f0 | a :: l => (a + lsum l)%F end.
Lemma lsum_app l l' : lsum (l ++ l') = (lsum l + lsum l')%F.
Proof. induction l as [|a l IH]; cbn; [ring|]. rewrite IH. ring. Qed.
Lemma lsum_perm l l' : Permutation l l' -> lsum l = lsum l'.
Proof. induction 1; cbn; try reflexivity; [rewrite IHPermutation; reflexivity|ring|congruence]. Qed.
Lemma sum_lsum n (F : nat -> K) : sum n F = lsum (map F (seq 0 n)).
Proof.
  induction n as [|n IH]; [reflexivity|]. cbn [sum]. rewrite seq_S, map_app, lsum_app, IH. cbn. ring.
Qed.
Lemma sum_perm n (g : nat -> nat) (F : nat -> K) :
  (forall i, i < n -> g i < n) -> (forall i j, i < n -> j < n -> g i = g j -> i = j) -> sum n (fun i => F (g i)) = sum n F.
Proof.
  intros H1 H2. rewrite !sum_lsum. rewrite <- map_map with (f := g) (g := F). apply lsum_perm. apply Permutation_map. apply inj_surj; assumption.
Qed.

Lemma wp_fastaddevaltrans h : forall R W alpha x y D f g m (Q : unit -> mem K -> Prop),
  hrep m h D -> vval m x f -> vval m y g -> vdim x = hrows h -> vdim y = hcols h ->
  disj (inv x) (inv y) -> disj (inh h) (inv y) -> rdok R W (inh h) -> rdok R W (inv x) -> wrok W (inv y) ->
  (forall m', vval m' y (fun j => g j + alpha * mvec (hrows h) (tr true D) f j)%F -> keeps (inv y) m m' -> Q tt m') ->
  wp R W (fastaddevaltrans_hmatrix_avector alpha h x y) m Q.
Proof.
  induction h as [h IH] using hm_rect'. intros R W alpha x y D f g m Q Hr Hx Hy Ex Ey Dxy Dhy Rh Rx Wy HQ.
  destruct Hr as [rc cc r ds D H1 H2 H3|rc cc a ds D H1 H2 H3|rc cc l rsons csons ds hs ws D P1 P2 P3 P4 P5 P6 P7];
    cbn [fastaddevaltrans_hmatrix_avector]; unfold hcols, hrows in Ex, Ey; cbn [hm_rc hm_cc] in Ex, Ey.
  - wstep. wstep. eapply (wp_addevaltrans_rk L); eauto; try lia.
    + intros a Ha. apply Dhy. eapply inh_r; [reflexivity|exact Ha].
    + intros a Ha. apply Rh. eapply inh_r; [reflexivity|exact Ha].
    + intros m' Hy' Hk'. apply HQ; [|exact Hk']. rewrite Ex in Hy'. exact Hy'.
  - wstep. wstep. eapply wp_mvm_amatrix_avector; [exact H3|exact Hx|exact Hy|lia|lia| |exact Dxy| |exact Rx|exact Wy|].
    + intros b Hb. apply Dhy. eapply inh_f; [reflexivity|exact Hb].
    + intros b Hb. apply Rh. eapply inh_f; [reflexivity|exact Hb].
    + intros m' Hy' Hk'. apply HQ; [|exact Hk']. eapply vval_ext; [exact Hy'|]. intros i Hi; cbv beta.
      destruct (Nat.ltb_spec i (mcols a)); [|lia]. unfold mvec, hrows. cbn [hm_rc]. rewrite H1. reflexivity.
  - wstep. wstep. cbv zeta.
    assert (Hsub : forall k s, nth_error l k = Some s -> forall a, inh s a -> inh (HM rc cc None None (Some l) rsons csons ds) a).
    { intros k s Hs a Ha. eapply inh_son; [reflexivity|eapply nth_error_In; exact Hs|exact Ha]. }
    apply wp_bind.
    apply (wp_forS (fun j yoff m1 => yoff = nsum j ws /\
      vval m1 y (fun p => if p <? nsum j ws then g p + alpha * mvec (csz rc) (tr true D) f p else g p)%F /\ keeps (inv y) m m1)).
    + split; [reflexivity|]. split; [|apply keeps_refl]. eapply vval_ext; [exact Hy|]. intros p Hp; cbv beta. reflexivity.
    + intros j yoff m1 [_ Hj] (-> & Hy1 & Hk1). cbn in Hj.
      destruct (nth_ex l (j * rsons)) as [sj Hsj]; [rewrite P3; pose proof (pos_lt 0 j rsons csons P1 Hj); lia|].
      destruct (P6 0 j sj P1 Hj Hsj) as [_ Ecj].
      rewrite (sget_map _ _ _ _ Hsj). cbn [bind fst]. rewrite Ecj.
      pose proof (nsum_in ws j csons Hj) as Bj.
      apply wp_bind. apply wp_init_sub_avector; [lia|].
      apply wp_bind.
      apply (wp_forS (fun i xoff m2 => xoff = nsum i hs /\
        vval m2 y (fun p => if p <? nsum j ws then g p + alpha * mvec (csz rc) (tr true D) f p
                            else if p <? nsum (S j) ws then g p + alpha * mvec (nsum i hs) (tr true D) f p else g p)%F /\ keeps (inv y) m m2)).
      * split; [reflexivity|]. split; [|exact Hk1]. eapply vval_ext; [exact Hy1|]. intros p Hp; cbv beta.
        destruct (p <? nsum j ws); [reflexivity|]. destruct (p <? nsum (S j) ws); [|reflexivity]. cbn [nsum]. unfold mvec. cbn [sum]. ring.
      * intros i xoff m2 [_ Hi] (-> & Hy2 & Hk2). cbn in Hi.
        destruct (nth_ex l i) as [si Hsi]; [rewrite P3; pose proof (pos_lt i 0 rsons csons Hi P2); lia|].
        destruct (P6 i 0 si Hi P2) as [Eri _]; [rewrite Nat.mul_0_l, Nat.add_0_r; exact Hsi|].
        destruct (nth_ex l (i + j * rsons)) as [s Hs]; [rewrite P3; apply pos_lt; assumption|].
        destruct (P6 i j s Hi Hj Hs) as [Er Ec]. pose proof (P7 i j s Hi Hj Hs) as Hsr.
        pose proof (nsum_in hs i rsons Hi) as Bi.
        rewrite (sget_map _ _ _ _ Hsi). cbn [bind fst]. rewrite Eri.
        apply wp_bind. apply wp_init_sub_avector; [lia|].
        rewrite (sget_map _ _ _ _ Hs). cbn [bind snd]. apply wp_bind.
        assert (Dhy' : disj (inh s) (inv y)) by (intros a Ha; apply Dhy; eapply Hsub; eauto).
        eapply (IH l s eq_refl (nth_error_In _ _ Hs)) with (y := subv y (nsum j ws) (ws j)) (x := subv x (nsum i hs) (hs i)).
        -- eapply hrep_keeps; [exact Hsr|exact Hk2|exact Dhy'].
        -- apply vval_subv; [|lia]. eapply vval_keeps; [exact Hx|exact Hk2|exact Dxy].
        -- apply vval_subv; [exact Hy2|lia].
        -- cbn. lia.
        -- cbn. lia.
        -- apply disj_subv; [lia|]. apply (subv_disj x); [lia|exact Dxy].
        -- apply (subv_disj x); [lia|exact Dhy'].
        -- intros a Ha. apply Rh. eapply Hsub; eauto.
        -- intros a Ha. apply Rx. eapply inv_subv; [|exact Ha]. lia.
        -- intros a Ha. apply Wy. eapply inv_subv; [|exact Ha]. lia.
        -- intros m3 Hy3 Hk3. cbn [uninit_avector vown subv bind wp].
           split; [reflexivity|]. split; [|eapply keeps_trans; [exact Hk2|eapply keeps_subv; [|exact Hk3]; lia]].
           eapply vval_ext; [eapply vval_subv_back; [exact Hy2| |exact Hy3|exact Hk3]; lia|].
           intros p Hp; cbv beta. cbn [nsum].
           destruct (Nat.leb_spec (nsum j ws) p) as [Hlo|Hlo]; cbn [andb].
           ++ destruct (Nat.ltb_spec p (nsum j ws)); [lia|]. destruct (Nat.ltb_spec p (nsum j ws + ws j)) as [Hhi|Hhi]; [|reflexivity].
              replace (nsum j ws + (p - nsum j ws)) with p by lia.
              destruct (Nat.ltb_spec p (nsum j ws)); [lia|]. destruct (Nat.ltb_spec p (nsum j ws + ws j)); [|lia].
              rewrite (mvec_app L). unfold mvec. rewrite Er. unfold tr. replace (nsum j ws + (p - nsum j ws)) with p by lia. ring.
           ++ destruct (Nat.ltb_spec p (nsum j ws)); [|lia]. reflexivity.
      * intros xoff m2 (-> & Hy2 & Hk2). cbn [Nat.add] in *. rewrite P4. wstep. cbn [uninit_avector vown subv bind wp].
        split; [reflexivity|]. split; [|exact Hk2]. eapply vval_ext; [exact Hy2|]. intros p Hp; cbv beta. rewrite P4.
        cbn [nsum]. destruct (Nat.ltb_spec p (nsum j ws)); [|reflexivity]. destruct (Nat.ltb_spec p (nsum j ws + ws j)); [reflexivity|lia].
    + intros yoff m1 (-> & Hy1 & Hk1). cbn [Nat.add] in *. rewrite P5. wstep. apply HQ; [|exact Hk1].
      eapply vval_ext; [exact Hy1|]. intros p Hp; cbv beta. rewrite P5. destruct (Nat.ltb_spec p (csz cc)); [|lia]. reflexivity.
Qed.

(** ** Permutations *)
Lemma wp_gather R W idx off n g x p f m (Q : unit -> mem K -> Prop) :
  perm_at idx off n g -> n = vdim x -> n = vdim p -> vval m x f -> valloc m p -> disj (inv x) (inv p) ->
  rdok R W (inv x) -> wrok W (inv p) ->
  (forall m', vval m' p (fun i => f (g i)) -> keeps (inv p) m m' -> Q tt m') ->
  wp R W (gather idx off n x p) m Q.
Proof.
  intros (P1 & P2 & P3) Ex Ep Hx Hp Hd Hr Hw HQ. unfold gather.
  eapply wp_vfill; [exact Hp|exact Ep| |exact HQ].
  intros i m1 Hi Ha Hk _. rewrite P1 by exact Hi. cbn [lift bind]. specialize (P2 i Hi).
  wstep. apply wp_bind. eapply wp_vload; [eapply vval_keeps; [exact Hx|exact Hk|exact Hd]|lia|exact Hr|].
  apply wp_vstore; [exact Ha|lia|exact Hw|]. apply wrote_upd; [apply Ha; lia|reflexivity].
Qed.

Lemma wp_scatter R W idx off n g p y f m (Q : unit -> mem K -> Prop) :
  perm_at idx off n g -> n = vdim y -> n = vdim p -> vval m p f -> valloc m y -> disj (inv p) (inv y) ->
  rdok R W (inv p) -> wrok W (inv y) ->
  (forall m', (forall i, i < n -> get m' (va y (g i)) = Val (f i)) -> keeps (inv y) m m' -> Q tt m') ->
  wp R W (scatter idx off n p y) m Q.
Proof.
  intros (P1 & P2 & P3) Ey Ep Hp Hy Hd Hr Hw HQ. unfold scatter.
  apply (wp_for (fun k m1 => (forall i, i < k -> get m1 (va y (g i)) = Val (f i)) /\ valloc m1 y /\ keeps (inv y) m m1)).
  - split; [intros; lia|]. split; [exact Hy|apply keeps_refl].
  - intros i m1 [_ Hi] (H1 & H2 & H3). cbn in Hi. rewrite P1 by exact Hi. cbn [lift bind]. pose proof (P2 i Hi) as Hgi.
    wstep. apply wp_bind. eapply wp_vload; [eapply vval_keeps; [exact Hp|exact H3|exact Hd]|lia|exact Hr|].
    assert (Hnf : get m1 (va y (g i)) <> Free) by (apply H2; lia).
    apply wp_vstore; [exact H2|lia|exact Hw|].
    split; [|split].
    + intros k Hk. rewrite get_upd by exact Hnf. destruct (addr_eqb_spec (va y (g k)) (va y (g i))) as [E|E].
      * apply va_inj in E. rewrite (P3 k i) by (try lia; exact E). reflexivity.
      * destruct (Nat.eq_dec k i) as [->|]; [congruence|]. apply H1. lia.
    + apply valloc_upd. exact H2.
    + apply keeps_upd_r; [exact H3|]. apply inv_va. lia.
  - intros m1 (H1 & H2 & H3). apply HQ; assumption.
Qed.

(** The common part of the products with permutations. *)
Lemma wp_permuted R W idx1 off1 idx2 off2 g1 g2 x y n1 n2 (D : nat -> nat -> K) alpha F (fast : vec -> vec -> prog K unit) f g m
  (I : mem K -> Prop) (Q : unit -> mem K -> Prop) :
  perm_at idx1 off1 n1 g1 -> perm_at idx2 off2 n2 g2 -> n1 = vdim x -> n2 = vdim y ->
  I m -> (forall m m' (W1 : addr -> Prop), I m -> keeps W1 m m' -> disj F W1 -> I m') ->
  (forall R W xp yp f g m (Q : unit -> mem K -> Prop), I m -> vval m xp f -> vval m yp g -> vdim xp = n1 -> vdim yp = n2 ->
     disj (inv xp) (inv yp) -> disj F (inv yp) -> rdok R W F -> rdok R W (inv xp) -> wrok W (inv yp) ->
     (forall m', vval m' yp (fun i => g i + alpha * mvec n1 (fun i j => D (g2 i) (g1 j)) f i)%F -> keeps (inv yp) m m' -> Q tt m') ->
     wp R W (fast xp yp) m Q) ->
  vval m x f -> vval m y g -> vblk x < next m -> vblk y < next m -> (forall a, F a -> fst a < next m) ->
  disj (inv x) (inv y) -> rdok R W F -> rdok R W (inv x) -> wrok W (inv y) ->
  (forall m', vval m' y (fun i => g i + alpha * mvec n1 D f i)%F -> keeps (inv y) m m' -> Q tt m') ->
  wp R W (xp <- init_avector (vdim x) ;;
          gather idx1 off1 (vdim x) x xp ;;;
          yp <- init_avector (vdim y) ;;
          gather idx2 off2 (vdim y) y yp ;;;
          fast xp yp ;;;
          scatter idx2 off2 (vdim y) yp y ;;;
          uninit_avector yp ;;;
          uninit_avector xp) m Q.
Proof.
  intros P1 P2 E1 E2 HI HIk Hfast Hx Hy Bx By BF Dxy RF Rx Wy HQ.
  unfold init_avector at 1. cbn [bind palloc wp].
  set (xp := Vec (next m) 0 (vdim x) true). set (m1 := alloc m (vdim x)).
  set (W1 := fun a => W a \/ fst a = next m).
  assert (N1 : next m1 = S (next m)) by reflexivity.
  assert (K1 : keeps (fun a => fst a = next m) m m1).
  { eapply keeps_mono; [|apply (keeps_alloc m (vdim x) (fun _ => False)); apply keeps_refl]. cbn. intros ? [[]|?]; assumption. }
  assert (Vxp : vblk xp = next m) by reflexivity.
  apply wp_bind. eapply (wp_gather R W1 idx1 off1 (vdim x) g1 x xp f).
  { rewrite <- E1. exact P1. }
  { reflexivity. }
  { reflexivity. }
  { eapply vval_keeps; [exact Hx|exact K1|]. intros a Ha Hb. apply inv_blk in Ha. lia. }
  { apply valloc_fresh. }
  { apply disj_vv_blk. lia. }
  { intros a Ha. destruct (Rx a Ha); [left|right; left]; assumption. }
  { intros a Ha. right. apply inv_blk in Ha. lia. }
  intros m2 Hxp K2. pose proof (proj1 K2) as N2.
  unfold init_avector. cbn [bind palloc wp].
  set (yp := Vec (next m2) 0 (vdim y) true). set (m3 := alloc m2 (vdim y)).
  set (W2 := fun a => W1 a \/ fst a = next m2).
  assert (N3 : next m3 = S (next m2)) by reflexivity.
  assert (Vyp : vblk yp = next m2) by reflexivity.
  assert (K3 : keeps (fun a => next m <= fst a) m m3).
  { eapply keeps_trans; [eapply keeps_mono; [|exact K1]; cbn; intros; lia|].
    eapply keeps_trans; [eapply keeps_mono; [|exact K2]; intros a Ha; apply inv_blk in Ha; lia|].
    eapply keeps_mono; [|apply (keeps_alloc m2 (vdim y) (fun _ => False)); apply keeps_refl]. cbn. intros a [[]|Ha]. lia. }
  assert (K3' : keeps (fun a => fst a = next m2) m2 m3).
  { eapply keeps_mono; [|apply (keeps_alloc m2 (vdim y) (fun _ => False)); apply keeps_refl]. cbn. intros ? [[]|?]; assumption. }
  assert (WR2 : forall P, rdok R W P -> rdok R W2 P).
  { intros P HP a Ha. destruct (HP a Ha); [left; assumption|right; left; left; assumption]. }
  assert (Wyp : wrok W2 (inv yp)) by (intros a Ha; right; apply inv_blk in Ha; lia).
  assert (Wxp : wrok W2 (inv xp)) by (intros a Ha; left; right; apply inv_blk in Ha; lia).
  apply wp_bind. eapply (wp_gather R W2 idx2 off2 (vdim y) g2 y yp g).
  { rewrite <- E2. exact P2. }
  { reflexivity. }
  { reflexivity. }
  { eapply vval_keeps; [exact Hy|exact K3|]. intros a Ha Hb. apply inv_blk in Ha. lia. }
  { apply valloc_fresh. }
  { apply disj_vv_blk. lia. }
  { apply WR2. intros a Ha. right. apply Wy. exact Ha. }
  { exact Wyp. }
  intros m4 Hyp K4. pose proof (proj1 K4) as N4.
  assert (Dyx : disj (inv xp) (inv yp)) by (apply disj_vv_blk; lia).
  assert (DF : disj F (inv yp)) by (intros a Ha Hb; apply BF in Ha; apply inv_blk in Hb; lia).
  apply wp_bind. eapply (Hfast R W2 xp yp); [| |exact Hyp| | |exact Dyx|exact DF| | |exact Wyp|].
  { eapply HIk; [|exact K4|exact DF]. eapply HIk; [exact HI|exact K3|]. intros a Ha Hb. apply BF in Ha. lia. }
  { eapply vval_keeps; [|exact K4|exact Dyx]. eapply vval_keeps; [exact Hxp|exact K3'|]. intros a Ha Hb. apply inv_blk in Ha. lia. }
  { cbn. lia. }
  { cbn. lia. }
  { apply WR2, RF. }
  { apply rdok_w. exact Wxp. }
  intros m5 Hyp5 K5. pose proof (proj1 K5) as N5.
  assert (K5y : keeps (fun a => next m <= fst a) m m5).
  { eapply keeps_trans; [exact K3|]. eapply keeps_trans; (eapply keeps_mono; [|eassumption]); intros a Ha; apply inv_blk in Ha; lia. }
  apply wp_bind. eapply (wp_scatter R W2 idx2 off2 (vdim y) g2 yp y).
  { rewrite <- E2. exact P2. }
  { reflexivity. }
  { reflexivity. }
  { exact Hyp5. }
  { apply (valloc_keeps _ _ _ _ (vval_alloc _ _ _ Hy) K5y). intros a Ha Hb. apply inv_blk in Ha. lia. }
  { apply disj_vv_blk. lia. }
  { apply rdok_w. exact Wyp. }
  { intros a Ha. left; left. apply Wy. exact Ha. }
  intros m6 Hy6 K6. pose proof (proj1 K6) as N6.
  unfold uninit_avector. cbn [vown xp yp bind pfree wp vblk].
  split; [lia|]. split; [intros o; right; reflexivity|].
  split; [cbn; lia|]. split; [intros o; left; right; reflexivity|].
  destruct P1 as (Pa & Pb & Pc), P2 as (Pd & Pe & Pf).
  apply HQ.
  - intros k Hk. rewrite <- E2 in Hk. destruct (perm_onto n2 g2 Pe Pf k Hk) as (i & Hi & <-).
    assert (Vy : fst (va y (g2 i)) = vblk y) by reflexivity.
    rewrite !get_dealloc. cbn [fst va]. destruct (Nat.eqb_spec (vblk y) (next m)); [lia|]. destruct (Nat.eqb_spec (vblk y) (next m2)); [lia|].
    rewrite Hy6 by lia. do 2 f_equal. f_equal. unfold mvec. apply (sum_perm n1 g1 (fun j => D (g2 i) j * f j)%F Pb Pc).
  - apply keeps_dealloc; [lia|]. apply keeps_dealloc; [lia|].
    split; [lia|]. intros a Ha. rewrite (proj2 K6) by tauto.
    rewrite (proj2 K5) by (intros Hb; apply Ha; right; apply inv_blk in Hb; lia).
    rewrite (proj2 K4) by (intros Hb; apply Ha; right; apply inv_blk in Hb; lia).
    rewrite (proj2 K3') by (intros Hb; apply Ha; right; lia).
    rewrite (proj2 K2) by (intros Hb; apply Ha; left; right; apply inv_blk in Hb; lia).
    apply (proj2 K1). intros Hb; apply Ha; left; right; lia.
Qed.

Lemma wp_permuted' R W idx1 off1 idx2 off2 g1 g2 x y n1 n2 (D : nat -> nat -> K) alpha F (fast : vec -> vec -> prog K unit) f g m
  (I : mem K -> Prop) (Q : unit -> mem K -> Prop) :
  perm_at idx1 off1 n1 g1 -> perm_at idx2 off2 n2 g2 -> n1 = vdim x -> n2 = vdim y ->
  I m -> (forall m m' (W1 : addr -> Prop), I m -> keeps W1 m m' -> disj F W1 -> I m') ->
  (forall R W xp yp f g m (Q : unit -> mem K -> Prop), I m -> vval m xp f -> vval m yp g -> vdim xp = n1 -> vdim yp = n2 ->
     disj (inv xp) (inv yp) -> disj F (inv yp) -> rdok R W F -> rdok R W (inv xp) -> wrok W (inv yp) ->
     (forall m', vval m' yp (fun i => g i + alpha * mvec n1 (fun i j => D (g2 i) (g1 j)) f i)%F -> keeps (inv yp) m m' -> Q tt m') ->
     wp R W (fast xp yp) m Q) ->
  vval m x f -> vval m y g -> vblk x < next m -> vblk y < next m -> (forall a, F a -> fst a < next m) ->
  disj (inv x) (inv y) -> rdok R W F -> rdok R W (inv x) -> wrok W (inv y) ->
  (forall m', vval m' y (fun i => g i + alpha * mvec n1 D f i)%F -> keeps (inv y) m m' -> Q tt m') ->
  wp R W (xp <- init_avector n1 ;;
          gather idx1 off1 n1 x xp ;;;
          yp <- init_avector n2 ;;
          gather idx2 off2 n2 y yp ;;;
          fast xp yp ;;;
          scatter idx2 off2 n2 yp y ;;;
          uninit_avector yp ;;;
          uninit_avector xp) m Q.
Proof. intros P1 P2 E1 E2. subst n1 n2. apply wp_permuted; auto. Qed.

Lemma wp_addeval_h ridx cidx h R W alpha x y A f g m (Q : unit -> mem K -> Prop) :
  hrepi m ridx cidx h A -> vval m x f -> vval m y g -> vdim x = hcols h -> vdim y = hrows h ->
  vblk x < next m -> vblk y < next m -> (forall a, inh h a -> fst a < next m) ->
  disj (inv x) (inv y) -> rdok R W (inh h) -> rdok R W (inv x) -> wrok W (inv y) ->
  (forall m', vval m' y (fun i => g i + alpha * mvec (hcols h) A f i)%F -> keeps (inv y) m m' -> Q tt m') ->
  wp R W (addeval_hmatrix_avector ridx cidx alpha h x y) m Q.
Proof.
  intros (gr & gc & Pr & Pc & Hr) Hx Hy Ex Ey Bx By BF Dxy RF Rx Wy HQ. unfold addeval_hmatrix_avector. wstep. wstep.
  eapply (wp_permuted R W cidx (c_off (cp_c (hm_cc h))) ridx (c_off (cp_c (hm_rc h))) gc gr x y (hcols h) (hrows h) A alpha (inh h)
    (fastaddeval_hmatrix_avector alpha h) f g m (fun m => hrep m h (fun i j => A (gr i) (gc j)))); eauto.
  - intros m0 m' W1 H Hk Hd. eapply hrep_keeps; eauto.
  - intros R' W' xp yp f' g' m' Q' HI Hxp Hyp E1 E2 D1 D2 R1 R2 W1 HQ'. eapply (wp_fastaddeval L); eauto.
Qed.
Lemma wp_addevaltrans_h ridx cidx h R W alpha x y A f g m (Q : unit -> mem K -> Prop) :
  hrepi m ridx cidx h A -> vval m x f -> vval m y g -> vdim x = hrows h -> vdim y = hcols h ->
  vblk x < next m -> vblk y < next m -> (forall a, inh h a -> fst a < next m) ->
  disj (inv x) (inv y) -> rdok R W (inh h) -> rdok R W (inv x) -> wrok W (inv y) ->
  (forall m', vval m' y (fun i => g i + alpha * mvec (hrows h) (tr true A) f i)%F -> keeps (inv y) m m' -> Q tt m') ->
  wp R W (addevaltrans_hmatrix_avector ridx cidx alpha h x y) m Q.
Proof.
  intros (gr & gc & Pr & Pc & Hr) Hx Hy Ex Ey Bx By BF Dxy RF Rx Wy HQ. unfold addevaltrans_hmatrix_avector. wstep. wstep.
  eapply (wp_permuted R W ridx (c_off (cp_c (hm_rc h))) cidx (c_off (cp_c (hm_cc h))) gr gc x y (hrows h) (hcols h) (tr true A) alpha (inh h)
    (fastaddevaltrans_hmatrix_avector alpha h) f g m (fun m => hrep m h (fun i j => A (gr i) (gc j)))); eauto.
  - intros m0 m' W1 H Hk Hd. eapply hrep_keeps; eauto.
  - intros R' W' xp yp f' g' m' Q' HI Hxp Hyp E1 E2 D1 D2 R1 R2 W1 HQ'. eapply wp_fastaddevaltrans; eauto.
Qed.

Lemma h_mvm_ok ridx cidx h A : mvm_ok (fun alpha t => mvm_hmatrix_avector ridx cidx alpha t h) (hrows h) (hcols h) A (tr true A) (inh h)
  (fun m => hrepi m ridx cidx h A /\ forall a, inh h a -> fst a < next m).
Proof.
  constructor.
  - intros m m' W [(gr & gc & H1 & H2 & H3) H4] Hk Hd. pose proof (proj1 Hk). split; [|intros a Ha; specialize (H4 a Ha); lia].
    exists gr, gc. split; [exact H1|]. split; [exact H2|]. eapply hrep_keeps; eauto.
  - intros R W alpha t x y f g m Q [HI HB] Hr Hx Hy Hdx Hdy Bx By Hxy HFy Hrx Hwy HQ. unfold mvm_hmatrix_avector. destruct t.
    + eapply wp_addevaltrans_h; eauto. intros m' Hy' Hk'. apply HQ; [|exact Hk']. rewrite Hdx. exact Hy'.
    + eapply wp_addeval_h; eauto. intros m' Hy' Hk'. apply HQ; [|exact Hk']. rewrite Hdx. exact Hy'.
Qed.
End HmP2.
