(** * Products of hermitian H2-matrices and vectors *)
From Coq Require Import Arith Lia List Bool Ring.
From Verif Require Import Fld Ord Prog Arr View Loop Spec Cluster Block BlockP Avector AvectorP Amatrix AmatrixP AmatrixP2 Hmatrix HmSpec HmP HmP2 HmP3
  Clusterbasis CbSpec CbP CbP2 CbP3 CbP4 H2matrix H2Spec H2P H2P2 CbP6 H2P3.
Import ListNotations.

Ltac bolr := unfold inb in *; repeat first [rewrite orb_true_iff | rewrite andb_true_iff | rewrite Nat.leb_le | rewrite Nat.ltb_lt | rewrite Nat.eqb_eq].
Ltac bol := apply Bool.eq_iff_eq_true; bolr; lia.
Ltac bol0 := apply Bool.not_true_iff_false; bolr; lia.

Section H2P5.
Context {K : fops} {G : ofops} (L : ring_laws K).
Add Ring KringH25 : (rl_ring K L).
Implicit Types (m : mem K) (R W : addr -> Prop) (h : h2matrix G) (cb rb : cbasis G) (M : cbasis G -> nat -> nat -> K)
  (D : nat -> nat -> K) (X Y Z : nat -> K).

(** ** Parts of bases *)
Lemma part_eqb cb n i (s : cbasis G) : cbok cb -> part_of cb n i s -> cb_eqb s cb = match cb_son cb with [] => true | _ => false end.
Proof.
  intros Hok [(E & _ & ->)|(_ & Hs)]; unfold cb_eqb.
  - rewrite E. apply cp_eqb_refl.
  - destruct (cb_son cb) as [|a l] eqn:E; [destruct i; discriminate Hs|]. inversion Hok as [|? ? ? ? ? ? ? ? ? _ Ht]; subst; cbn [cb_son] in *; [discriminate|].
    rewrite E in *. specialize (Ht i s Hs). cbn [cb_t]. unfold cp_son in Ht. destruct (nth_error (c_sons (cp_c t)) i); [|discriminate]. injection Ht as <-.
    unfold cp_eqb. cbn [cp_path]. destruct (list_eq_dec Nat.eq_dec (i :: cp_path t) (cp_path t)) as [F|]; [|reflexivity].
    exfalso. assert (EL : length (i :: cp_path t) = length (cp_path t)) by (rewrite F at 1; reflexivity). cbn in EL. lia.
Qed.
Lemma wp_spart R W cb n i (s : cbasis G) (xt : vec) m (Q : vec -> mem K -> Prop) :
  cbok cb -> i < n -> part_of cb n i s -> vdim xt = cb_ktree cb -> Q (subv xt (pcol cb i) (cb_ktree s)) m ->
  wp R W (h2_spart cb s i (noff cb i) xt) m Q.
Proof.
  intros Hok Hi Hp Ex HQ. pose proof (part_room cb n i s Hok Hi Hp) as Hr. unfold h2_spart. rewrite (part_eqb cb n i s Hok Hp).
  unfold pcol, noff in *. destruct Hp as [(E & -> & ->)|(-> & Hs)].
  - rewrite E in *. apply wp_init_sub_avector; [lia|exact HQ].
  - destruct (nth_in _ _ _ Hs) as [_ Hin]. destruct (cb_son cb) eqn:E; [destruct Hin|]. apply wp_bind. apply wp_assert; [apply Nat.ltb_lt; exact Hi|].
    rewrite (sget_some _ _ _ Hs). cbn [bind]. apply wp_init_sub_avector; [lia|exact HQ].
Qed.
Lemma snext_eq cb n i (s : cbasis G) : cbok cb -> i < n -> part_of cb n i s -> h2_snext (K := K) cb s i (noff cb i) = Ret (noff cb (S i)).
Proof.
  intros Hok Hi Hp. unfold h2_snext. rewrite (part_eqb cb n i s Hok Hp). unfold noff. destruct Hp as [(E & -> & ->)|(-> & Hs)].
  - rewrite E. f_equal. lia.
  - destruct (nth_in _ _ _ Hs) as [_ Hin]. destruct (cb_son cb) eqn:E; [destruct Hin|]. rewrite (sget_some _ _ _ Hs). cbn [bind nsum].
    rewrite (at_nth _ _ _ _ Hs). f_equal. lia.
Qed.

(** ** The four vectors of coefficients *)
Definition vs4 m rb cb (xt xta yt yta : vec) XT XA Y YA : Prop :=
  vval m xt XT /\ vval m xta XA /\ vval m yt Y /\ vval m yta YA /\
  vdim xt = cb_ktree cb /\ vdim xta = cb_ktree rb /\ vdim yt = cb_ktree rb /\ vdim yta = cb_ktree cb.
Definition vd4 (F : addr -> Prop) (xt xta yt yta : vec) : Prop :=
  (disj (inv xt) (inv yt) /\ disj (inv xt) (inv yta)) /\ (disj (inv xta) (inv yt) /\ disj (inv xta) (inv yta)) /\ disj (inv yt) (inv yta) /\
  disj F (inv yt) /\ disj F (inv yta).
Definition vp4 R W (F : addr -> Prop) (xt xta yt yta : vec) : Prop :=
  rdok R W F /\ rdok R W (inv xt) /\ rdok R W (inv xta) /\ wrok W (inv yt) /\ wrok W (inv yta).
Definition in2 (y1 y2 : vec) (a : addr) : Prop := inv y1 a \/ inv y2 a.

Lemma vd4_sub (F F' : addr -> Prop) xt xta yt yta o n o' n' : vd4 F xt xta yt yta -> (forall a, F' a -> F a) ->
  o + n <= vdim xt -> o + n <= vdim yta -> o' + n' <= vdim xta -> o' + n' <= vdim yt ->
  vd4 F' (subv xt o n) (subv xta o' n') (subv yt o' n') (subv yta o n).
Proof.
  intros ((A1 & A2) & (B1 & B2) & C & D1 & D2) HF E1 E2 E3 E4.
  assert (In : forall (x : vec) a b z, a + b <= vdim x -> inv (subv x a b) z -> inv x z) by (intros x a b z Hx Hz; eapply inv_subv; [|exact Hz]; exact Hx).
  split; [split|split; [split|split; [|split]]]; intros z Hz1 Hz2.
  - eapply A1; eapply In; eassumption.
  - eapply A2; eapply In; eassumption.
  - eapply B1; eapply In; eassumption.
  - eapply B2; eapply In; eassumption.
  - eapply C; eapply In; eassumption.
  - eapply D1; [apply HF; exact Hz1|eapply In; eassumption].
  - eapply D2; [apply HF; exact Hz1|eapply In; eassumption].
Qed.
Lemma vp4_sub R W (F F' : addr -> Prop) xt xta yt yta o n o' n' : vp4 R W F xt xta yt yta -> (forall a, F' a -> F a) ->
  o + n <= vdim xt -> o + n <= vdim yta -> o' + n' <= vdim xta -> o' + n' <= vdim yt ->
  vp4 R W F' (subv xt o n) (subv xta o' n') (subv yt o' n') (subv yta o n).
Proof.
  intros (A & B & C & D1 & D2) HF E1 E2 E3 E4.
  assert (In : forall (x : vec) a b z, a + b <= vdim x -> inv (subv x a b) z -> inv x z) by (intros x a b z Hx Hz; eapply inv_subv; [|exact Hz]; exact Hx).
  split; [|split; [|split; [|split]]]; intros z Hz; [apply A, HF, Hz|apply B|apply C|apply D1|apply D2]; (eapply In; [|exact Hz]; assumption).
Qed.
Lemma in2_sub (y1 y2 : vec) o n o' n' a : o + n <= vdim y1 -> o' + n' <= vdim y2 -> in2 (subv y1 o n) (subv y2 o' n') a -> in2 y1 y2 a.
Proof. intros H1 H2 [H|H]; [left|right]; (eapply inv_subv; [|exact H]; assumption). Qed.
Lemma vval_part (P : addr -> Prop) m m' y o n Y Y' : vval m y Y -> o + n <= vdim y -> vval m' (subv y o n) Y' ->
  keeps P m m' -> (forall a, P a -> inv y a -> inv (subv y o n) a) ->
  vval m' y (fun p => if inb o n p then Y' (p - o)%nat else Y p).
Proof.
  intros Hy Ho Hy' Hk HP p Hp. destruct (inb o n p) eqn:E.
  - unfold inb in E. apply andb_prop in E. destruct E as [E1 E2]. apply Nat.leb_le in E1. apply Nat.ltb_lt in E2.
    replace (va y p) with (va (subv y o n) (p - o)); [apply Hy'; cbn; lia|]. unfold va, subv; cbn. f_equal. lia.
  - rewrite (proj2 Hk); [apply Hy, Hp|]. intros Hb. apply HP in Hb; [|apply inv_va, Hp]. destruct Hb as (k & Hk' & Ea). cbn in Hk'.
    unfold va, subv in Ea; cbn in Ea. injection Ea as Ea. assert (p = o + k) by lia. subst p.
    apply Bool.not_true_iff_false in E. apply E. unfold inb. apply andb_true_iff. rewrite Nat.leb_le, Nat.ltb_lt. lia.
Qed.
Lemma bwd_part M cb n i (s : cbasis G) Y2 Y3 p : cbok cb -> i < n -> part_of cb n i s -> p < cb_size cb ->
  bwd_of M cb (fun o => if inb (pcol cb i) (cb_ktree s) o then Y3 (o - pcol cb i)%nat else Y2 o) p =
  (bwd_of M cb Y2 p + if inb (prow cb i) (cb_size s) p then bwd_of M s Y3 (p - prow cb i)%nat - bwd_of M s (fun o => Y2 (pcol cb i + o)%nat) (p - prow cb i)%nat else f0)%F.
Proof.
  intros Hok Hi Hp Hpp.
  rewrite (bwd_part_of L M cb n i s Y2 _ (fun q => bwd_of M s Y3 q - bwd_of M s (fun o => Y2 (pcol cb i + o)%nat) q)%F Hok Hi Hp); [| | |exact Hpp].
  - fold (inb (prow cb i) (cb_size s) p). destruct (inb (prow cb i) (cb_size s) p); ring.
  - intros o Ho Ho'. unfold inb. destruct (Nat.leb_spec (pcol cb i) o); [|reflexivity]. destruct (Nat.ltb_spec o (pcol cb i + cb_ktree s)); [lia|reflexivity].
  - intros q Hq. unfold shiftv at 2. rewrite (bwd_ext M M s _ Y3 q); [ring|eapply part_ok; eassumption|exact Hq|reflexivity|].
    intros o Ho. unfold shiftv, inb. destruct (Nat.leb_spec (pcol cb i) (pcol cb i + o)); [|lia]. destruct (Nat.ltb_spec (pcol cb i + o) (pcol cb i + cb_ktree s)); [|lia].
    cbn [andb]. f_equal. lia.
Qed.

(** ** Blocks below the diagonal *)
Definition two_adds M rb cb D X Z alpha Y Y' YA YA' : Prop :=
  (forall p, p < cb_size rb -> bwd_of M rb Y' p = bwd_of M rb Y p + alpha * mvec (cb_size cb) D X p)%F /\
  (forall q, q < cb_size cb -> bwd_of M cb YA' q = bwd_of M cb YA q + alpha * mvec (cb_size rb) (tr true D) Z q)%F.

Lemma vs4_keeps F R W rb cb xt xta yt yta XT XA Y YA m m' Y' YA' : vs4 m rb cb xt xta yt yta XT XA Y YA -> vd4 F xt xta yt yta ->
  keeps (in2 yt yta) m m' -> vval m' yt Y' -> vval m' yta YA' -> vp4 R W F xt xta yt yta -> vs4 m' rb cb xt xta yt yta XT XA Y' YA'.
Proof.
  intros (A1 & A2 & A3 & A4 & A5) ((B1 & B2) & (B3 & B4) & _) Hk H1 H2 _. repeat split; try apply A5; try assumption.
  - eapply vval_keeps; [exact A1|exact Hk|]. intros a Ha [Hb|Hb]; [eapply B1|eapply B2]; eassumption.
  - eapply vval_keeps; [exact A2|exact Hk|]. intros a Ha [Hb|Hb]; [eapply B3|eapply B4]; eassumption.
Qed.
Lemma msk_part n ro rk co ck D X (c : K) p (d : K) : co + ck <= n ->
  (inb ro rk p = true -> d = (c * mvec ck (fun p q => D (ro + p)%nat (co + q)%nat) (fun q => X (co + q)%nat) (p - ro)%nat)%F) -> (inb ro rk p = false -> d = f0) ->
  d = (c * msk n (fun q => inb ro rk p && inb co ck q) (fun q => D p q * X q))%F.
Proof.
  intros Hn H1 H2. destruct (inb ro rk p) eqn:E.
  - rewrite H1 by reflexivity. unfold inb in E. apply andb_prop in E. destruct E as [E1 E2]. apply Nat.leb_le in E1. apply Nat.ltb_lt in E2.
    rewrite (msk_box L n _ co ck) by (reflexivity || lia). f_equal. unfold mvec. replace (ro + (p - ro)) with p by lia. reflexivity.
  - rewrite H2 by reflexivity. rewrite (msk_none L) by reflexivity. ring.
Qed.
Lemma msk_full n (T : nat -> bool) D X p : (forall q, q < n -> T q = true) -> msk n T (fun q => D p q * X q)%F = mvec n D X p.
Proof. intros H. apply msk_all, H. Qed.

Lemma two_step m2 m3 rb cb (yt yta : vec) Y2 Y3 YA2 YA3 n1 n2 i j (b1 b2 : cbasis G) :
  cbok rb -> cbok cb -> i < n1 -> j < n2 -> part_of rb n1 i b1 -> part_of cb n2 j b2 -> vdim yt = cb_ktree rb -> vdim yta = cb_ktree cb ->
  disj (inv yt) (inv yta) -> vval m2 yt Y2 -> vval m2 yta YA2 ->
  let ys := subv yt (pcol rb i) (cb_ktree b1) in let yas := subv yta (pcol cb j) (cb_ktree b2) in
  keeps (in2 ys yas) m2 m3 -> vval m3 ys Y3 -> vval m3 yas YA3 ->
  exists Y4 YA4, vval m3 yt Y4 /\ vval m3 yta YA4 /\ keeps (in2 yt yta) m2 m3 /\
  (forall M p, p < cb_size rb -> bwd_of M rb Y4 p = bwd_of M rb Y2 p +
      if inb (prow rb i) (cb_size b1) p then bwd_of M b1 Y3 (p - prow rb i)%nat - bwd_of M b1 (fun o => Y2 (pcol rb i + o)%nat) (p - prow rb i)%nat else f0)%F /\
  (forall M q, q < cb_size cb -> bwd_of M cb YA4 q = bwd_of M cb YA2 q +
      if inb (prow cb j) (cb_size b2) q then bwd_of M b2 YA3 (q - prow cb j)%nat - bwd_of M b2 (fun o => YA2 (pcol cb j + o)%nat) (q - prow cb j)%nat else f0)%F.
Proof.
  intros Hr Hc Hi Hj P1 P2 E1 E2 Dy H1 H2 ys yas Hk H3 H4. pose proof (part_room rb n1 i b1 Hr Hi P1) as B1. pose proof (part_room cb n2 j b2 Hc Hj P2) as B2.
  eexists. eexists. split; [|split; [|split; [|split]]].
  - eapply (vval_part _ m2); [exact H1| |exact H3|exact Hk|]; [lia|]. intros a [Ha|Ha] Hb; [exact Ha|]. exfalso. eapply Dy; [exact Hb|]. eapply inv_subv; [|exact Ha]. lia.
  - eapply (vval_part _ m2); [exact H2| |exact H4|exact Hk|]; [lia|]. intros a [Ha|Ha] Hb; [|exact Ha]. exfalso. eapply Dy; [|exact Hb]. eapply inv_subv; [|exact Ha]. lia.
  - eapply keeps_mono; [|exact Hk]. intros a Ha. eapply in2_sub; [| |exact Ha]; lia.
  - intros M p Hp. apply (bwd_part M rb n1 i b1 Y2 Y3 p Hr Hi P1 Hp).
  - intros M q Hq. apply (bwd_part M cb n2 j b2 YA2 YA3 q Hc Hj P2 Hq).
Qed.

Lemma wp_h2_off M h : forall R W alpha (xt xta yt yta : vec) D X Z XT XA Y YA m (Q : unit -> mem K -> Prop),
  h2rep M m h D -> h2strict h -> h2nz h -> cbok (h2_rb h) -> cbok (h2_cb h) ->
  vs4 m (h2_rb h) (h2_cb h) xt xta yt yta XT XA Y YA -> vd4 (inh2 h) xt xta yt yta -> vp4 R W (inh2 h) xt xta yt yta ->
  fwd_of M (h2_cb h) X XT -> fwd_of M (h2_rb h) Z XA ->
  (forall m' Y' YA', vval m' yt Y' -> vval m' yta YA' -> two_adds M (h2_rb h) (h2_cb h) D X Z alpha Y Y' YA YA' -> keeps (in2 yt yta) m m' -> Q tt m') ->
  wp R W (h2_addevalsymm_offdiag alpha h xt xta yt yta) m Q.
Proof.
  induction h as [h IH] using h2_rect'. intros R W alpha xt xta yt yta D X Z XT XA Y YA m Q Hrep Hst Hnz Hr Hc V4 D4 P4 HX HZ HQ.
  destruct V4 as (Vx & Vxa & Vy & Vya & E1 & E2 & E3 & E4).
  destruct Hrep as [rb cb A Su ds D P1 P2 P3 P5|rb cb F ds D P1 P2 P3|rb cb ds D P1|rb cb l rsons csons ds hs ws D P1 P2 P3 P5 P6 P7 P8];
    cbn [h2_addevalsymm_offdiag]; cbn [h2_rb h2_cb] in *; wstep; wstep; wstep; wstep.
  - destruct D4 as ((A1 & A2) & (B1 & B2) & C & D1 & D2). destruct P4 as (R1 & R2 & R3 & W1 & W2).
    assert (FA : forall a, inm A a -> inh2 (H2 rb cb (Some A) None None 0 0 ds) a) by (intros a Ha; eapply inh2_u; [reflexivity|exact Ha]).
    apply wp_bind. eapply (wp_coupling L false R W alpha A xt yt M rb cb Su D X XT Y m); try eassumption.
    { intros a Ha. apply D1, FA, Ha. }
    { intros a Ha. apply R1, FA, Ha. }
    intros m1 Y1 Hy1 HB1 Hk1.
    eapply (wp_coupling L true R W alpha A xta yta M rb cb Su D Z XA YA m1); try eassumption.
    { eapply mval_keeps; [exact P3|exact Hk1|]. intros a Ha. apply D1, FA, Ha. }
    { eapply vval_keeps; [exact Vxa|exact Hk1|exact B1]. }
    { eapply vval_keeps; [exact Vya|exact Hk1|]. intros a Ha Hb. exact (C a Hb Ha). }
    { intros a Ha. apply D2, FA, Ha. }
    { intros a Ha. apply R1, FA, Ha. }
    intros m2 Y2 Hy2 HB2 Hk2. eapply HQ; [eapply vval_keeps; [exact Hy1|exact Hk2|exact C]|exact Hy2|split; assumption|].
    eapply keeps_trans; [eapply keeps_mono; [|exact Hk1]|eapply keeps_mono; [|exact Hk2]]; intros a Ha; [left|right]; exact Ha.
  - destruct D4 as ((A1 & A2) & (B1 & B2) & C & D1 & D2). destruct P4 as (R1 & R2 & R3 & W1 & W2).
    assert (FA : forall a, inm F a -> inh2 (H2 rb cb None (Some F) None 0 0 ds) a) by (intros a Ha; eapply inh2_f; [reflexivity|exact Ha]).
    inversion Hst as [|? ? ? ? L1 L2| |]; subst.
    pose proof (cbok_ktree rb Hr) as Kr. pose proof (cbok_ktree cb Hc) as Kc. unfold cb_leaf in Kr, Kc. rewrite L1 in Kr. rewrite L2 in Kc.
    apply wp_bind, wp_init_sub_avector; [lia|]. apply wp_bind, wp_init_sub_avector; [lia|].
    apply wp_bind. eapply (wp_dense L false R W alpha F xt yt M rb cb D X XT Y m); try eassumption.
    { intros a Ha. apply D1, FA, Ha. }
    { intros a Ha. apply R1, FA, Ha. }
    intros m1 Y1 Hy1 HB1 Hk1. cbn [uninit_avector vown subv bind].
    apply wp_bind, wp_init_sub_avector; [lia|]. apply wp_bind, wp_init_sub_avector; [lia|].
    apply wp_bind. eapply (wp_dense L true R W alpha F xta yta M rb cb D Z XA YA m1); try eassumption.
    { eapply mval_keeps; [exact P3|exact Hk1|]. intros a Ha. apply D1, FA, Ha. }
    { eapply vval_keeps; [exact Vxa|exact Hk1|exact B1]. }
    { eapply vval_keeps; [exact Vya|exact Hk1|]. intros a Ha Hb. exact (C a Hb Ha). }
    { intros a Ha. apply D2, FA, Ha. }
    { intros a Ha. apply R1, FA, Ha. }
    intros m2 Y2 Hy2 HB2 Hk2. cbn [uninit_avector vown subv bind wp].
    eapply HQ; [eapply vval_keeps; [exact Hy1|exact Hk2|exact C]|exact Hy2|split; assumption|].
    eapply keeps_trans; [eapply keeps_mono; [|exact Hk1]|eapply keeps_mono; [|exact Hk2]]; intros a Ha; [left|right]; exact Ha.
  - exfalso. inversion Hnz.
  - inversion Hst as [| | |? ? ? ? ? ? HS]; subst. inversion Hnz as [| |? ? ? ? ? ? HN]; subst. cbv zeta.
    pose proof D4 as ((A1 & A2) & (B1 & B2) & C & D1 & D2).
    assert (Hnth : forall i j, i < rsons -> j < csons -> exists s, nth_error l (i + j * rsons) = Some s).
    { intros i j Hi Hj. apply nth_ex. rewrite P3. apply pos_lt; assumption. }
    assert (HPr : forall i, i < rsons -> exists s, part_of rb rsons i s /\ cb_size s = hs i).
    { intros i Hi. destruct (Hnth i 0 Hi P2) as [s Hs]. exists (h2_rb s). destruct (HS i 0 s Hi P2 Hs) as (A & _). split; [exact A|]. apply (P7 i 0 s Hi P2 Hs). }
    assert (HPc : forall j, j < csons -> exists s, part_of cb csons j s /\ cb_size s = ws j).
    { intros j Hj. destruct (Hnth 0 j P1 Hj) as [s Hs]. exists (h2_cb s). destruct (HS 0 j s P1 Hj Hs) as (_ & A & _). split; [exact A|]. apply (P7 0 j s P1 Hj Hs). }
    pose proof (part_prow rb rsons hs HPr) as Eh. pose proof (part_prow cb csons ws HPc) as Ew.
    rewrite <- (noff_0 cb), <- (noff_0 rb).
    set (T := fun j i p q => (q <? nsum j ws) || ((q <? nsum (S j) ws) && (p <? nsum i hs))).
    set (I := fun j i m1 => exists Y1 YA1, vval m1 yt Y1 /\ vval m1 yta YA1 /\
      (forall p, p < cb_size rb -> bwd_of M rb Y1 p = bwd_of M rb Y p + alpha * msk (cb_size cb) (fun q => T j i p q) (fun q => D p q * X q))%F /\
      (forall q, q < cb_size cb -> bwd_of M cb YA1 q = bwd_of M cb YA q + alpha * msk (cb_size rb) (fun p => T j i p q) (fun p => tr true D q p * Z p))%F /\
      keeps (in2 yt yta) m m1).
    apply wp_bind. apply (wp_forS (fun j xoff m1 => xoff = noff cb j /\ I j 0 m1)).
    + split; [reflexivity|]. exists Y, YA. split; [exact Vy|]. split; [exact Vya|]. split; [|split; [|apply keeps_refl]].
      * intros p Hp. rewrite (msk_none L); [ring|]. intros q Hq. unfold T. cbn [nsum]. bol0.
      * intros q Hq. rewrite (msk_none L); [ring|]. intros p Hp. unfold T. cbn [nsum]. bol0.
    + intros j xoff m1 [_ Hj] (-> & HI1). cbn in Hj.
      destruct (HPc j Hj) as (cs & Hcs & Ecs). destruct (Hnth 0 j P1 Hj) as [sj Hsj]. cbn [Nat.add] in Hsj.
      destruct (HS 0 j sj P1 Hj Hsj) as (_ & Scj & _). pose proof (part_fun _ _ _ _ _ Scj Hcs) as Escj.
      rewrite (sget_map _ _ _ _ Hsj). cbn [bind fst]. rewrite Escj.
      apply wp_bind. eapply wp_spart; [exact Hc|exact Hj|exact Hcs|exact E1|].
      apply wp_bind. eapply wp_spart; [exact Hc|exact Hj|exact Hcs|exact E4|].
      rewrite (snext_eq cb csons j cs Hc Hj Hcs). cbn [bind].
      pose proof (part_room cb csons j cs Hc Hj Hcs) as Bc. pose proof (nsum_in ws j csons Hj) as Bj.
      apply wp_bind. apply (wp_forS (fun i yoff m2 => yoff = noff rb i /\ I j i m2)).
      * split; [reflexivity|exact HI1].
      * intros i yoff m2 [_ Hi] (-> & (Y2 & YA2 & Hy2 & Hya2 & HB2 & HC2 & Hk2)). cbn in Hi.
        destruct (HPr i Hi) as (rs & Hrs & Ers). destruct (Hnth i 0 Hi P2) as [si Hsi]. destruct (HS i 0 si Hi P2 Hsi) as (Sri & _ & _).
        pose proof (part_fun _ _ _ _ _ Sri Hrs) as Esri. rewrite Nat.mul_0_l, Nat.add_0_r in Hsi.
        rewrite (sget_map _ _ _ _ Hsi). cbn [bind fst]. rewrite Esri.
        apply wp_bind. eapply wp_spart; [exact Hr|exact Hi|exact Hrs|exact E3|].
        apply wp_bind. eapply wp_spart; [exact Hr|exact Hi|exact Hrs|exact E2|].
        rewrite (snext_eq rb rsons i rs Hr Hi Hrs). cbn [bind].
        pose proof (part_room rb rsons i rs Hr Hi Hrs) as Br. pose proof (nsum_in hs i rsons Hi) as Bi.
        destruct (Hnth i j Hi Hj) as [s Hs]. destruct (HS i j s Hi Hj Hs) as (Sr & Sc & Ss). destruct (P7 i j s Hi Hj Hs) as [Er Ec]. unfold h2rows, h2cols in Er, Ec.
        pose proof (part_fun _ _ _ _ _ Sr Hrs) as Ers'. pose proof (part_fun _ _ _ _ _ Sc Hcs) as Ecs'.
        rewrite (sget_map _ _ _ _ Hs). cbn [bind snd]. apply wp_bind.
        assert (Hsub : forall a, inh2 s a -> inh2 (H2 rb cb None None (Some l) rsons csons ds) a) by (intros a Ha; eapply inh2_sub; eauto).
        pose proof (cbok_k_ktree rs (part_ok _ _ _ _ Hr Hrs)).
        eapply (IH l s eq_refl (nth_error_In _ _ Hs) R W alpha _ _ _ _ _ (shiftv X (prow cb j)) (shiftv Z (prow rb i)));
          rewrite ?Ers', ?Ecs'.
        -- eapply h2rep_keeps; [exact (P8 i j s Hi Hj Hs)|exact Hk2|]. intros a Ha [Hb|Hb]; [eapply D1|eapply D2]; eauto.
        -- exact Ss.
        -- apply HN. eapply nth_error_In; exact Hs.
        -- eapply part_ok; [exact Hr|exact Hrs].
        -- eapply part_ok; [exact Hc|exact Hcs].
        -- split; [|split; [|split; [|split; [|repeat split]]]].
           ++ apply vval_subv; [|lia]. eapply vval_keeps; [exact Vx|exact Hk2|]. intros a Ha [Hb|Hb]; [eapply A1|eapply A2]; eassumption.
           ++ apply vval_subv; [|lia]. eapply vval_keeps; [exact Vxa|exact Hk2|]. intros a Ha [Hb|Hb]; [eapply B1|eapply B2]; eassumption.
           ++ apply vval_subv; [exact Hy2|lia].
           ++ apply vval_subv; [exact Hya2|lia].
        -- eapply vd4_sub; [exact D4|exact Hsub|lia..].
        -- eapply vp4_sub; [exact P4|exact Hsub|lia..].
        -- exact (fwd_part_of M cb csons j cs X XT Hj Hcs HX).
        -- exact (fwd_part_of M rb rsons i rs Z XA Hi Hrs HZ).
        -- intros m3 Y3 YA3 Hy3 Hya3 [HB3 HC3] Hk3. cbn [uninit_avector vown subv bind wp]. split; [reflexivity|].
           destruct (two_step m2 m3 rb cb yt yta Y2 Y3 YA2 YA3 rsons csons i j rs cs Hr Hc Hi Hj Hrs Hcs E3 E4 C Hy2 Hya2 Hk3 Hy3 Hya3)
             as (Y4 & YA4 & Hy4 & Hya4 & Hk4 & HB4 & HC4).
           exists Y4, YA4. split; [exact Hy4|]. split; [exact Hya4|]. split; [|split; [|eapply keeps_trans; eassumption]].
           ++ intros p Hp. rewrite HB4, HB2 by exact Hp.
              rewrite (msk_part (cb_size cb) (nsum i hs) (hs i) (nsum j ws) (ws j) D X alpha p
                (if inb (prow rb i) (cb_size rs) p then bwd_of M rs Y3 (p - prow rb i)%nat - bwd_of M rs (fun o => Y2 (pcol rb i + o)%nat) (p - prow rb i)%nat else f0)%F).
              ** rewrite (msk_split L (cb_size cb) (fun q => T j (S i) p q) (fun q => T j i p q) (fun q => inb (nsum i hs) (hs i) p && inb (nsum j ws) (ws j) q)); [ring| |].
                 --- intros q Hq. unfold T. cbn [nsum]. bol.
                 --- intros q Hq. unfold T. cbn [nsum]. bol0.
              ** lia.
              ** intros Hin. rewrite <- Eh, Ers by lia. rewrite Hin. unfold inb in Hin. apply andb_prop in Hin. destruct Hin as [I1 I2]. apply Nat.leb_le in I1. apply Nat.ltb_lt in I2.
                 rewrite HB3 by lia. rewrite Ecs, Ew by lia. unfold shiftv. ring.
              ** intros Hin. rewrite <- Eh, Ers by lia. rewrite Hin. reflexivity.
           ++ intros q Hq. rewrite HC4, HC2 by exact Hq.
              rewrite (msk_part (cb_size rb) (nsum j ws) (ws j) (nsum i hs) (hs i) (tr true D) Z alpha q
                (if inb (prow cb j) (cb_size cs) q then bwd_of M cs YA3 (q - prow cb j)%nat - bwd_of M cs (fun o => YA2 (pcol cb j + o)%nat) (q - prow cb j)%nat else f0)%F).
              ** rewrite (msk_split L (cb_size rb) (fun p => T j (S i) p q) (fun p => T j i p q) (fun p => inb (nsum j ws) (ws j) q && inb (nsum i hs) (hs i) p)); [ring| |].
                 --- intros p Hp. unfold T. cbn [nsum]. bol.
                 --- intros p Hp. unfold T. cbn [nsum]. bol0.
              ** lia.
              ** intros Hin. rewrite <- Ew, Ecs by lia. rewrite Hin. unfold inb in Hin. apply andb_prop in Hin. destruct Hin as [I1 I2]. apply Nat.leb_le in I1. apply Nat.ltb_lt in I2.
                 rewrite HC3 by lia. rewrite Ers, Eh by lia. unfold shiftv. cbn [tr]. ring.
              ** intros Hin. rewrite <- Ew, Ecs by lia. rewrite Hin. reflexivity.
      * intros yoff m2 (-> & (Y2 & YA2 & Hy2 & Hya2 & HB2 & HC2 & Hk2)). cbn [Nat.add] in *.
        destruct (HPr 0 P1) as (r0 & Hr0 & _). rewrite (noff_end rb rsons 0 r0 Hr Hr0). wstep. cbn [uninit_avector vown subv bind wp].
        split; [reflexivity|]. exists Y2, YA2. split; [exact Hy2|]. split; [exact Hya2|]. split; [|split; [|exact Hk2]].
        -- intros p Hp. rewrite HB2 by exact Hp. f_equal. f_equal. apply msk_ext; [|reflexivity]. intros q Hq. unfold T. cbn [nsum]. rewrite P5. bol.
        -- intros q Hq. rewrite HC2 by exact Hq. f_equal. f_equal. apply msk_ext; [|reflexivity]. intros p Hp. unfold T. cbn [nsum]. rewrite P5. bol.
    + intros xoff m1 (-> & (Y2 & YA2 & Hy2 & Hya2 & HB2 & HC2 & Hk2)). cbn [Nat.add] in *.
      destruct (HPc 0 P2) as (c0 & Hc0 & _). rewrite (noff_end cb csons 0 c0 Hc Hc0). wstep.
      eapply HQ; [exact Hy2|exact Hya2| |exact Hk2]. split.
      * intros p Hp. rewrite HB2 by exact Hp. rewrite (msk_full (cb_size cb) (fun q => T csons 0 p q) D X p); [reflexivity|]. intros q Hq. unfold T. bolr. lia.
      * intros q Hq. rewrite HC2 by exact Hq. rewrite (msk_full (cb_size rb) (fun p => T csons 0 p q) (tr true D) Z q); [reflexivity|]. intros p Hp. unfold T. bolr. lia.
Qed.

(** ** Diagonal blocks *)
Lemma h2low_keeps (W : addr -> Prop) M m m' h D : h2low M m h D -> keeps W m m' -> disj (inh2 h) W -> h2low M m' h D.
Proof.
  intros H Hk. induction H as [rb cb F ds D P1 P2 P3 P5 L1 L2|rb cb l n ds hs D P1 P2 P3 P5 P6 P7 IH P8]; intros Hd.
  - constructor; auto. intros p q Hpq. rewrite (proj2 Hk); [apply P5; exact Hpq|]. intros Hw. eapply Hd; [|exact Hw]. eapply inh2_f; [reflexivity|].
    apply inm_ma; lia.
  - econstructor; eauto.
    + intros j s Hj Hs. eapply IH; eauto. intros a Ha. apply Hd. eapply inh2_son; [reflexivity|eapply nth_error_In; exact Hs|exact Ha].
    + intros i j s Hij Hs. destruct (P8 i j s Hij Hs) as (A1 & A2 & A3). split; [exact A1|]. split; [exact A2|]. eapply h2rep_keeps; [exact A3|exact Hk|]. intros a Ha. apply Hd.
      eapply inh2_son; [reflexivity|eapply nth_error_In; exact Hs|exact Ha].
Qed.

Lemma wp_h2_tri R W rb n j (s s0 : cbasis G) (yt xta : vec) m (Q : vec * vec * nat -> mem K -> Prop) :
  cbok rb -> j < n -> part_of rb n j s -> part_of rb n 0 s0 -> vdim yt = cb_ktree rb -> vdim xta = cb_ktree rb ->
  Q (subv yt (pcol rb j) (cb_ktree s), subv xta (pcol rb j) (cb_ktree s), noff rb (S j)) m ->
  wp R W (if cb_eqb s0 rb then
            yt1 <- init_sub_avector yt (cb_ktree rb) 0 ;;
            xta1 <- init_sub_avector xta (cb_ktree rb) 0 ;;
            Ret (yt1, xta1, cb_k rb + cb_size rb)
          else
            ytoff <- forS 0 j (fun i ytoff => c <- sget (Some (cb_son rb)) i ;; Ret (ytoff + cb_ktree c)) (cb_k rb) ;;
            c <- sget (Some (cb_son rb)) j ;;
            yt1 <- init_sub_avector yt (cb_ktree c) ytoff ;;
            xta1 <- init_sub_avector xta (cb_ktree c) ytoff ;;
            Ret (yt1, xta1, ytoff + cb_ktree c)) m Q.
Proof.
  intros Hok Hj Hp H0 E1 E2 HQ. pose proof (part_room rb n j s Hok Hj Hp) as Hr. rewrite (part_eqb rb n 0 s0 Hok H0). unfold pcol, noff in *.
  destruct Hp as [(E & -> & ->)|(-> & Hs)].
  - rewrite E in *. apply wp_bind, wp_init_sub_avector; [lia|]. apply wp_bind, wp_init_sub_avector; [lia|]. cbn [wp].
    replace (cb_k rb + cb_size rb) with (cb_k rb + S j * cb_size rb); [exact HQ|]. replace j with 0 by lia. lia.
  - destruct (nth_in _ _ _ Hs) as [_ Hin]. destruct (cb_son rb) as [|a l] eqn:E; [destruct Hin|].
    apply wp_bind. apply (wp_forS (fun i o m1 => m1 = m /\ o = cb_k rb + nsum i (at_ cb_ktree (a :: l)))).
    + split; [reflexivity|]. cbn [nsum]. lia.
    + intros i o m1 [_ Hi] (-> & ->). cbn in Hi. destruct (nth_ex (a :: l) i) as [c Hc]; [lia|]. rewrite (sget_some _ _ _ Hc). cbn [bind wp].
      split; [reflexivity|]. cbn [nsum]. rewrite (at_nth _ _ _ _ Hc). lia.
    + intros o m1 (-> & ->). rewrite Nat.add_0_l. rewrite (sget_some _ _ _ Hs). cbn [bind].
      apply wp_bind, wp_init_sub_avector; [lia|]. apply wp_bind, wp_init_sub_avector; [lia|]. cbn [wp].
      replace (cb_k rb + nsum j (at_ cb_ktree (a :: l)) + cb_ktree s) with (cb_k rb + nsum (S j) (at_ cb_ktree (a :: l))); [exact HQ|].
      cbn [nsum]. rewrite (at_nth _ _ _ _ Hs). lia.
Qed.

Lemma wp_h2_diag M h : forall R W alpha (xt xta yt yta : vec) D X XT XA Y YA m (Q : unit -> mem K -> Prop),
  h2low M m h D -> cbok (h2_rb h) -> cbok (h2_cb h) ->
  vs4 m (h2_rb h) (h2_cb h) xt xta yt yta XT XA Y YA -> vd4 (inh2 h) xt xta yt yta -> vp4 R W (inh2 h) xt xta yt yta ->
  fwd_of M (h2_cb h) X XT -> fwd_of M (h2_rb h) X XA ->
  (forall m' Y' YA', vval m' yt Y' -> vval m' yta YA' ->
     (forall p, p < cb_size (h2_rb h) -> bwd_of M (h2_rb h) Y' p + bwd_of M (h2_cb h) YA' p =
        bwd_of M (h2_rb h) Y p + bwd_of M (h2_cb h) YA p + alpha * sum (cb_size (h2_rb h)) (fun q => herm_of D p q * X q))%F ->
     keeps (in2 yt yta) m m' -> Q tt m') ->
  wp R W (h2_addevalsymm_diag alpha h xt xta yt yta) m Q.
Proof.
  induction h as [h IH] using h2_rect'. intros R W alpha xt xta yt yta D X XT XA Y YA m Q Hlow Hr Hc V4 D4 P4 HX HZ HQ.
  destruct V4 as (Vx & Vxa & Vy & Vya & E1 & E2 & E3 & E4).
  destruct Hlow as [rb cb F ds D P1 P2 P3 P5 L1 L2|rb cb l n ds hs D P1 P2 P3 P5 P6 P7 P8];
    cbn [h2_addevalsymm_diag]; cbn [h2_rb h2_cb] in *; rewrite P1, cp_eqb_refl; cbn [passert bind]; wstep; wstep; wstep; wstep.
  - destruct D4 as ((A1 & A2) & (B1 & B2) & C & D1 & D2). destruct P4 as (R1 & R2 & R3 & W1 & W2).
    assert (FA : forall a, inm F a -> inh2 (H2 rb cb None (Some F) None 0 0 ds) a) by (intros a Ha; eapply inh2_f; [reflexivity|exact Ha]).
    assert (Es : cb_size cb = cb_size rb) by (unfold cb_size; rewrite P1; reflexivity).
    pose proof (cbok_ktree rb Hr) as Kr. pose proof (cbok_ktree cb Hc) as Kc. unfold cb_leaf in Kr, Kc. rewrite L1 in Kr. rewrite L2 in Kc.
    apply wp_bind, wp_init_sub_avector; [lia|]. apply wp_bind, wp_init_sub_avector; [lia|].
    apply wp_bind. unfold h2_diagloop.
    eapply (wp_diag_leaf L R W alpha (subv xt (cb_k cb) (cb_size rb)) (subv yt (cb_k rb) (cb_size rb)) F (cb_size rb) D
              (fun p => XT (cb_k cb + p)%nat) (fun p => Y (cb_k rb + p)%nat) m); [exact P5|exact P2|exact P3| | |reflexivity|reflexivity| | | | | |].
    + apply vval_subv; [exact Vx|lia].
    + apply vval_subv; [exact Vy|lia].
    + apply disj_subv; [lia|]. apply (subv_disj xt); [lia|exact A1].
    + apply (subv_disj xt); [lia|]. intros b Hb. apply D1, FA, Hb.
    + intros b Hb. apply R1, FA, Hb.
    + intros b Hb. apply R2. eapply inv_subv; [|exact Hb]. lia.
    + intros b Hb. apply W1. eapply inv_subv; [|exact Hb]. lia.
    + intros m1 Hy1 Hk1. cbn [uninit_avector vown subv bind wp].
      assert (Hk1' : keeps (inv yt) m m1) by (eapply keeps_subv; [|exact Hk1]; lia).
      eapply HQ.
      * eapply (vval_part _ m); [exact Vy| |exact Hy1|exact Hk1|]; [lia|]. intros a Ha _. exact Ha.
      * eapply vval_keeps; [exact Vya|exact Hk1'|]. intros a Ha Hb. exact (C a Hb Ha).
      * intros p Hp. rewrite !(bwd_leaf L M rb) by (assumption || lia).
        rewrite (sum_ext (cb_k rb) _ (fun q => M rb p q * Y q)%F).
        2:{ intros q Hq. unfold inb. destruct (Nat.leb_spec (cb_k rb) q); [lia|reflexivity]. }
        replace (inb (cb_k rb) (cb_size rb) (cb_k rb + p)) with true by (symmetry; bolr; lia).
        replace (cb_k rb + p - cb_k rb) with p by lia.
        rewrite (sum_ext (cb_size rb) (fun q => herm_of D p q * XT (cb_k cb + q)%nat)%F (fun q => herm_of D p q * X q)%F); [ring|].
        intros q Hq. f_equal. destruct (HX 0 0 cb (nodes_self cb)) as [_ AX]. apply AX; [unfold cb_leaf; rewrite L2; reflexivity|lia].
      * eapply keeps_mono; [|exact Hk1']. intros a Ha. left. exact Ha.
  - rewrite Nat.eqb_refl. cbn [passert bind]. cbv zeta.
    pose proof D4 as ((A1 & A2) & (B1 & B2) & C & D1 & D2).
    assert (Es : cb_size cb = cb_size rb) by (unfold cb_size; rewrite P1; reflexivity).
    assert (Hnth : forall i j, i < n -> j < n -> exists s, nth_error l (i + j * n) = Some s).
    { intros i j Hi Hj. apply nth_ex. rewrite P3. apply pos_lt; assumption. }
    assert (HPr : forall i, i < n -> exists s, part_of rb n i s /\ cb_size s = hs i).
    { intros i Hi. destruct (Hnth i 0 Hi P2) as [s Hs]. exists (h2_rb s). destruct (P6 i 0 s Hi P2 Hs) as (A & _ & B & _). split; [exact B|exact A]. }
    assert (HPc : forall j, j < n -> exists s, part_of cb n j s /\ cb_size s = hs j).
    { intros j Hj. destruct (Hnth 0 j P2 Hj) as [s Hs]. exists (h2_cb s). destruct (P6 0 j s P2 Hj Hs) as (_ & A & _ & B). split; [exact B|exact A]. }
    pose proof (part_prow rb n hs HPr) as Eh. pose proof (part_prow cb n hs HPc) as Ew.
    rewrite <- (noff_0 cb).
    set (T := fun j i p q => (p <? nsum j hs) || (q <? nsum j hs) || ((p <? nsum (S j) hs) && (q <? nsum i hs))
        || ((q <? nsum (S j) hs) && (p <? nsum i hs))).
    set (I := fun j i m1 => exists Y1 YA1, vval m1 yt Y1 /\ vval m1 yta YA1 /\
      (forall p, p < cb_size rb -> bwd_of M rb Y1 p + bwd_of M cb YA1 p =
         bwd_of M rb Y p + bwd_of M cb YA p + alpha * msk (cb_size rb) (fun q => T j i p q) (fun q => herm_of D p q * X q))%F /\
      keeps (in2 yt yta) m m1).
    apply wp_bind. apply (wp_forS (fun j xoff m1 => xoff = noff cb j /\ I j 0 m1)).
    + split; [reflexivity|]. exists Y, YA. split; [exact Vy|]. split; [exact Vya|]. split; [|apply keeps_refl].
      intros p Hp. rewrite (msk_none L); [ring|]. intros q Hq. unfold T. cbn [nsum]. bol0.
    + intros j xoff m1 [_ Hj] (-> & (Y1 & YA1 & Hy1 & Hya1 & HB1 & Hk1)). cbn in Hj.
      destruct (HPc j Hj) as (cs & Hcs & Ecs). destruct (Hnth 0 j P2 Hj) as [sj Hsj]. cbn [Nat.add] in Hsj.
      destruct (P6 0 j sj P2 Hj Hsj) as (_ & _ & _ & Scj). pose proof (part_fun _ _ _ _ _ Scj Hcs) as Escj.
      rewrite (sget_map _ _ _ _ Hsj). cbn [bind fst]. rewrite Escj.
      apply wp_bind. eapply wp_spart; [exact Hc|exact Hj|exact Hcs|exact E1|].
      apply wp_bind. eapply wp_spart; [exact Hc|exact Hj|exact Hcs|exact E4|].
      rewrite (snext_eq cb n j cs Hc Hj Hcs). cbn [bind].
      pose proof (part_room cb n j cs Hc Hj Hcs) as Bc. pose proof (nsum_in hs j n Hj) as Bj.
      destruct (Hnth 0 0 P2 P2) as [s0 Hs0]. cbn [Nat.add Nat.mul] in Hs0. destruct (P6 0 0 s0 P2 P2 Hs0) as (_ & _ & S0r & _).
      rewrite (sget_map _ _ _ _ Hs0). cbn [bind fst].
      destruct (HPr j Hj) as (rs & Hrs & Ers). pose proof (part_room rb n j rs Hr Hj Hrs) as Br.
      apply wp_bind. eapply wp_h2_tri; [exact Hr|exact Hj|exact Hrs|exact S0r|exact E3|exact E2|].
      destruct (Hnth j j Hj Hj) as [sd Hsd]. destruct (P6 j j sd Hj Hj Hsd) as (Erd & Ecd & Srd & Scd). unfold h2rows, h2cols in Erd, Ecd.
      pose proof (part_fun _ _ _ _ _ Srd Hrs) as Ers'. pose proof (part_fun _ _ _ _ _ Scd Hcs) as Ecs'.
      rewrite (sget_map _ _ _ _ Hsd). cbn [bind snd]. apply wp_bind.
      assert (Hsub : forall k s, nth_error l k = Some s -> forall a, inh2 s a -> inh2 (H2 rb cb None None (Some l) n n ds) a).
      { intros k s Hs a Ha. eapply inh2_son; [reflexivity|eapply nth_error_In; exact Hs|exact Ha]. }
      eapply (IH l sd eq_refl (nth_error_In _ _ Hsd) R W alpha _ _ _ _ _ (shiftv X (nsum j hs)));
          rewrite ?Ers', ?Ecs'.
      { eapply h2low_keeps; [exact (P7 j sd Hj Hsd)|exact Hk1|]. intros a Ha [Hb|Hb]; [eapply D1|eapply D2]; eauto. }
      { eapply part_ok; [exact Hr|exact Hrs]. }
      { eapply part_ok; [exact Hc|exact Hcs]. }
      { split; [|split; [|split; [|split; [|repeat split]]]].
        - apply vval_subv; [|lia]. eapply vval_keeps; [exact Vx|exact Hk1|]. intros a Ha [Hb|Hb]; [eapply A1|eapply A2]; eassumption.
        - apply vval_subv; [|lia]. eapply vval_keeps; [exact Vxa|exact Hk1|]. intros a Ha [Hb|Hb]; [eapply B1|eapply B2]; eassumption.
        - apply vval_subv; [exact Hy1|lia].
        - apply vval_subv; [exact Hya1|lia]. }
      { eapply vd4_sub; [exact D4|eapply Hsub; exact Hsd|lia..]. }
      { eapply vp4_sub; [exact P4|eapply Hsub; exact Hsd|lia..]. }
      { rewrite Ew by lia. exact (fwd_part_of M cb n j cs X XT Hj Hcs HX). }
      { rewrite Eh by lia. exact (fwd_part_of M rb n j rs X XA Hj Hrs HZ). }
      intros m2 Y2 YA2 Hy2 Hya2 HB2 Hk2. cbn [uninit_avector vown subv bind].
      destruct (two_step m1 m2 rb cb yt yta Y1 Y2 YA1 YA2 n n j j rs cs Hr Hc Hj Hj Hrs Hcs E3 E4 C Hy1 Hya1 Hk2 Hy2 Hya2)
             as (Y3 & YA3 & Hy3 & Hya3 & Hk3 & HB3 & HC3).
      assert (HI : I j (j + 1) m2).
      { exists Y3, YA3. split; [exact Hy3|]. split; [exact Hya3|]. split; [|eapply keeps_trans; eassumption].
        intros p Hp. rewrite HB3 by exact Hp. rewrite HC3 by lia. rewrite <- Eh, <- Ew, Ers, Ecs by lia.
        rewrite (msk_split L (cb_size rb) (fun q => T j (j + 1) p q) (fun q => T j 0 p q) (fun q => inb (nsum j hs) (hs j) p && inb (nsum j hs) (hs j) q)).
        2:{ intros q Hq. unfold T. rewrite Nat.add_1_r. cbn [nsum]. bol. }
        2:{ intros q Hq. unfold T. cbn [nsum]. bol0. }
        specialize (HB1 p Hp).
        assert (HP := msk_part (cb_size rb) (nsum j hs) (hs j) (nsum j hs) (hs j) (herm_of D) X alpha p
          ((if inb (nsum j hs) (hs j) p then bwd_of M rs Y2 (p - nsum j hs)%nat - bwd_of M rs (fun o => Y1 (pcol rb j + o)%nat) (p - nsum j hs)%nat else f0) +
            (if inb (nsum j hs) (hs j) p then bwd_of M cs YA2 (p - nsum j hs)%nat - bwd_of M cs (fun o => YA1 (pcol cb j + o)%nat) (p - nsum j hs)%nat else f0))%F).
        match type of HP with ?A -> ?B -> ?C -> _ => assert (HA : A); [|assert (HBB : B); [|assert (HCC : C); [|specialize (HP HA HBB HCC); clear HA HBB HCC]]] end.
        { lia. }
        { intros Hin. rewrite Hin. unfold inb in Hin. apply andb_prop in Hin. destruct Hin as [I1 I2]. apply Nat.leb_le in I1. apply Nat.ltb_lt in I2.
          specialize (HB2 (p - nsum j hs)%nat ltac:(lia)). unfold mvec.
          assert (EH : sum (cb_size rs) (fun q => herm_of (fun p q => D (nsum j hs + p)%nat (nsum j hs + q)%nat) (p - nsum j hs) q * shiftv X (nsum j hs) q)%F =
                       sum (hs j) (fun q => herm_of D (nsum j hs + (p - nsum j hs)) (nsum j hs + q) * X (nsum j hs + q)%nat)%F).
          { rewrite Ers. apply sum_ext. intros q Hq. unfold shiftv. f_equal. unfold herm_of.
            destruct (Nat.leb_spec q (p - nsum j hs)), (Nat.leb_spec (nsum j hs + q) (nsum j hs + (p - nsum j hs))); try lia; reflexivity. }
          rewrite EH in HB2. set (z := sum (hs j) _) in *. clearbody z.
          transitivity ((bwd_of M rs Y2 (p - nsum j hs) + bwd_of M cs YA2 (p - nsum j hs)) - (bwd_of M rs (fun o => Y1 (pcol rb j + o)%nat) (p - nsum j hs) + bwd_of M cs (fun o => YA1 (pcol cb j + o)%nat) (p - nsum j hs)))%F; [ring|].
          rewrite HB2. ring. }
        { intros Hin. rewrite Hin. ring. }
        match goal with |- (?a + ?x + (?b + ?y))%F = _ => transitivity ((a + b) + (x + y))%F; [ring|] end.
        rewrite HB1, HP. ring. }
      apply wp_bind. apply (wp_forS (fun i yoff m3 => yoff = noff rb i /\ I j i m3)).
      * split; [rewrite Nat.add_1_r; reflexivity|exact HI].
      * clear HI. intros i yoff m3 Hi (-> & (Y4 & YA4 & Hy4 & Hya4 & HB4 & Hk4)). assert (Hij : j < i < n) by lia. clear Hi.
        destruct (Hnth i j) as [s Hs]; [lia|lia|]. destruct (P6 i j s) as (Er & Ec & Sr & Sc); [lia|lia|exact Hs|]. unfold h2rows, h2cols in Er, Ec.
        destruct (P8 i j s Hij Hs) as (Ss & Sn & Srep).
        pose proof (part_fun _ _ _ _ _ Sc Hcs) as Ecs2.
        assert (Eri : noff rb i = pcol rb i /\ nth_error (cb_son rb) i = Some (h2_rb s) /\ n = length (cb_son rb)).
        { destruct Sr as [(_ & En & _)|(En & Hsr)]; [lia|]. unfold noff, pcol. destruct (cb_son rb) as [|a0 l0]; [destruct i; discriminate Hsr|]. repeat split; assumption. }
        destruct Eri as (Eo & Hsr & En).
        assert (Bi : nsum i hs + hs i <= nsum n hs) by (apply nsum_in; lia).
        assert (Bji : nsum j hs + hs j <= nsum i hs) by (apply nsum_in; lia).
        assert (Hin : i < n) by lia. pose proof (part_room rb n i _ Hr Hin Sr) as Br2.
        apply wp_bind, wp_assert; [apply Nat.ltb_lt; lia|]. rewrite (sget_some _ _ _ Hsr). cbn [bind]. rewrite Eo.
        apply wp_bind, wp_init_sub_avector; [lia|]. apply wp_bind, wp_init_sub_avector; [lia|].
        rewrite (sget_map _ _ _ _ Hs). cbn [bind fst]. apply wp_bind.
        eapply (wp_h2_off M s R W alpha _ _ _ _ _ (shiftv X (prow cb j)) (shiftv X (prow rb i))); rewrite ?Ecs2.
        { eapply h2rep_keeps; [exact Srep|exact Hk4|]. intros a Ha [Hb|Hb]; [eapply D1|eapply D2]; eauto. }
        { exact Ss. }
        { exact Sn. }
        { eapply part_ok; [exact Hr|exact Sr]. }
        { eapply part_ok; [exact Hc|exact Hcs]. }
        { split; [|split; [|split; [|split; [|repeat split]]]].
          - apply vval_subv; [|lia]. eapply vval_keeps; [exact Vx|exact Hk4|]. intros a Ha [Hb|Hb]; [eapply A1|eapply A2]; eassumption.
          - apply vval_subv; [|lia]. eapply vval_keeps; [exact Vxa|exact Hk4|]. intros a Ha [Hb|Hb]; [eapply B1|eapply B2]; eassumption.
          - apply vval_subv; [exact Hy4|lia].
          - apply vval_subv; [exact Hya4|lia]. }
        { eapply vd4_sub; [exact D4|eapply Hsub; exact Hs|lia..]. }
        { eapply vp4_sub; [exact P4|eapply Hsub; exact Hs|lia..]. }
        { exact (fwd_part_of M cb n j cs X XT Hj Hcs HX). }
        { exact (fwd_part_of M rb n i _ X XA Hin Sr HZ). }
        intros m4 Y5 YA5 Hy5 Hya5 [HB5 HC5] Hk5. cbn [uninit_avector vown subv bind wp].
        destruct (two_step m3 m4 rb cb yt yta Y4 Y5 YA4 YA5 n n i j _ cs Hr Hc Hin Hj Sr Hcs E3 E4 C Hy4 Hya4 Hk5 Hy5 Hya5)
             as (Y6 & YA6 & Hy6 & Hya6 & Hk6 & HB6 & HC6).
        split.
        { rewrite <- Eo. unfold noff. destruct (cb_son rb) as [|a0 l0] eqn:El; [destruct i; discriminate Hsr|]. cbn [nsum]. rewrite (at_nth _ _ _ _ Hsr). lia. }
        exists Y6, YA6. split; [exact Hy6|]. split; [exact Hya6|]. split; [|eapply keeps_trans; eassumption].
        intros p Hp. rewrite HB6 by exact Hp. rewrite HC6 by lia.
        rewrite (msk_split L (cb_size rb) (fun q => T j (S i) p q) (fun q => T j i p q) (boxes (nsum i hs) (hs i) (nsum j hs) (hs j) p)).
        2:{ intros q Hq. unfold T, boxes. cbn [nsum]. bol. }
        2:{ intros q Hq. unfold T, boxes. cbn [nsum]. bol0. }
        rewrite (msk_split L (cb_size rb) (boxes (nsum i hs) (hs i) (nsum j hs) (hs j) p) (fun q => inb (nsum i hs) (hs i) p && inb (nsum j hs) (hs j) q)
                   (fun q => inb (nsum j hs) (hs j) p && inb (nsum i hs) (hs i) q)).
        2:{ intros q Hq. reflexivity. }
        2:{ intros q Hq. bol0. }
        rewrite (msk_part (cb_size rb) (nsum i hs) (hs i) (nsum j hs) (hs j) (herm_of D) X alpha p
                (if inb (prow rb i) (cb_size (h2_rb s)) p then bwd_of M (h2_rb s) Y5 (p - prow rb i)%nat - bwd_of M (h2_rb s) (fun o => Y4 (pcol rb i + o)%nat) (p - prow rb i)%nat else f0)%F).
        2:{ lia. }
        2:{ intros Hin'. rewrite <- Eh, Er by lia. rewrite Hin'. unfold inb in Hin'. apply andb_prop in Hin'. destruct Hin' as [I1 I2]. apply Nat.leb_le in I1. apply Nat.ltb_lt in I2.
            rewrite HB5 by lia. rewrite Ecs. rewrite <- Ew by lia.
            replace (mvec (hs j) (fun p q => herm_of D (nsum i hs + p) (nsum j hs + q)) (fun q => X (nsum j hs + q)%nat) (p - nsum i hs)) with
              (mvec (hs j) (fun p q => D (nsum i hs + p)%nat (nsum j hs + q)%nat) (shiftv X (nsum j hs)) (p - nsum i hs)); [ring|].
            unfold mvec. apply sum_ext. intros q Hq. unfold shiftv. f_equal. unfold herm_of. destruct (Nat.leb_spec (nsum j hs + q) (nsum i hs + (p - nsum i hs))); [reflexivity|lia]. }
        2:{ intros Hin'. rewrite <- Eh, Er by lia. rewrite Hin'. reflexivity. }
        rewrite (msk_part (cb_size rb) (nsum j hs) (hs j) (nsum i hs) (hs i) (herm_of D) X alpha p
                (if inb (prow cb j) (cb_size cs) p then bwd_of M cs YA5 (p - prow cb j)%nat - bwd_of M cs (fun o => YA4 (pcol cb j + o)%nat) (p - prow cb j)%nat else f0)%F).
        2:{ lia. }
        2:{ intros Hin'. rewrite <- Ew, Ecs by lia. rewrite Hin'. unfold inb in Hin'. apply andb_prop in Hin'. destruct Hin' as [I1 I2]. apply Nat.leb_le in I1. apply Nat.ltb_lt in I2.
            rewrite HC5 by lia. rewrite Er. rewrite <- Eh by lia.
            replace (mvec (hs i) (fun p q => herm_of D (nsum j hs + p) (nsum i hs + q)) (fun q => X (nsum i hs + q)%nat) (p - nsum j hs)) with
              (mvec (hs i) (tr true (fun p q => D (nsum i hs + p)%nat (nsum j hs + q)%nat)) (shiftv X (nsum i hs)) (p - nsum j hs)); [ring|].
            unfold mvec. apply sum_ext. intros q Hq. unfold shiftv. f_equal. cbn [tr]. unfold herm_of. destruct (Nat.leb_spec (nsum i hs + q) (nsum j hs + (p - nsum j hs))); [lia|reflexivity]. }
        2:{ intros Hin'. rewrite <- Ew, Ecs by lia. rewrite Hin'. reflexivity. }
        specialize (HB4 p Hp).
        match goal with |- (?a + ?x + (?b + ?y))%F = _ => transitivity ((a + b) + (x + y))%F; [ring|] end.
        rewrite HB4. ring.
      * intros yoff m3 (-> & (Y4 & YA4 & Hy4 & Hya4 & HB4 & Hk4)). replace (j + 1 + (n - (j + 1))) with n in * by lia.
        rewrite (noff_end rb n j rs Hr Hrs). wstep. cbn [uninit_avector vown subv bind wp].
        split; [reflexivity|]. exists Y4, YA4. split; [exact Hy4|]. split; [exact Hya4|]. split; [|exact Hk4].
        intros p Hp. rewrite HB4 by exact Hp. f_equal. f_equal. apply msk_ext; [|reflexivity]. intros q Hq. unfold T. cbn [nsum]. rewrite P5. bol.
    + intros xoff m1 (-> & (Y1 & YA1 & Hy1 & Hya1 & HB1 & Hk1)). cbn [Nat.add] in *.
      destruct (HPc 0 P2) as (c0 & Hc0 & _). rewrite (noff_end cb n 0 c0 Hc Hc0). wstep.
      eapply HQ; [exact Hy1|exact Hya1| |exact Hk1].
      intros p Hp. rewrite HB1 by exact Hp. f_equal. f_equal. apply msk_all. intros q Hq. unfold T. bolr. lia.
Qed.

Lemma h2low_t M m h D : h2low M m h D -> cb_t (h2_rb h) = cb_t (h2_cb h).
Proof. intros H. destruct H; assumption. Qed.

Lemma wp_h2_symm idx h R W alpha x y A f g m (Q : unit -> mem K -> Prop) :
  h2symready m idx h A -> vval m x f -> vval m y g -> vdim x = h2rows h -> vdim y = h2rows h ->
  vblk x < next m -> vblk y < next m -> (forall a, inh2b h a -> fst a < next m) ->
  disj (inh2b h) (inv y) -> rdok R W (inh2b h) -> rdok R W (inv x) -> wrok W (inv y) ->
  (forall m', vval m' y (fun i => g i + alpha * mvec (vdim x) A f i)%F -> keeps (inv y) m m' -> Q tt m') ->
  wp R W (addevalsymm_h2matrix_avector idx idx alpha h x y) m Q.
Proof.
  intros ((gi & D & (Pr1 & Pr2 & Pr3) & Hlow & HA) & (Or & Pr & Ir) & (Oc & Pc & Ic)) Hx Hy Ex Ey Bx By BF Dhy Rh Rx Wy HQ.
  pose proof (h2low_t _ _ _ _ Hlow) as Et.
  assert (Es : cb_size (h2_cb h) = cb_size (h2_rb h)) by (unfold cb_size; rewrite Et; reflexivity).
  assert (Eo : cb_off (h2_cb h) = cb_off (h2_rb h)) by (unfold cb_off; rewrite Et; reflexivity).
  unfold addevalsymm_h2matrix_avector. cbv zeta. rewrite Et, cp_eqb_refl. cbn [passert bind]. unfold new_coeffs_clusterbasis_avector.
  unfold h2rows in *. set (rb := h2_rb h) in *. set (cb := h2_cb h) in *. set (n := cb_size rb) in *.
  apply wp_tmp. intros xt m1 Ext Ha1 N1 K1. apply wp_tmp. intros xta m2 Exta Ha2 N2 K2. apply wp_tmp. intros yt m3 Eyt Ha3 N3 K3. apply wp_tmp. intros yta m4 Eyta Ha4 N4 K4.
  set (W4 := fun a => (((W a \/ fst a = next m) \/ fst a = next m1) \/ fst a = next m2) \/ fst a = next m3).
  set (O := fun a : addr => fst a = next m \/ fst a = S (next m) \/ fst a = S (S (next m)) \/ fst a = S (S (S (next m)))).
  assert (B1 : forall a, inv xt a -> fst a = next m) by (intros a Ha; apply inv_blk in Ha; rewrite Ha, Ext; reflexivity).
  assert (B2 : forall a, inv xta a -> fst a = S (next m)) by (intros a Ha; apply inv_blk in Ha; rewrite Ha, Exta; cbn; lia).
  assert (B3 : forall a, inv yt a -> fst a = S (S (next m))) by (intros a Ha; apply inv_blk in Ha; rewrite Ha, Eyt; cbn; lia).
  assert (B4 : forall a, inv yta a -> fst a = S (S (S (next m)))) by (intros a Ha; apply inv_blk in Ha; rewrite Ha, Eyta; cbn; lia).
  assert (T4 : forall (P : addr -> Prop), keeps O m m4).
  { intros P. eapply keeps_trans; [eapply keeps_mono; [|exact K1]; unfold O; cbn; lia|]. eapply keeps_trans; [eapply keeps_mono; [|exact K2]; unfold O; cbn; lia|].
    eapply keeps_trans; [eapply keeps_mono; [|exact K3]; unfold O; cbn; lia|]. eapply keeps_mono; [|exact K4]; unfold O; cbn; lia. }
  specialize (T4 O).
  assert (Lift : forall P, rdok R W P -> rdok R W4 P).
  { intros P HP a Ha. destruct (HP a Ha); [left; assumption|right; unfold W4; auto]. }
  assert (W1 : wrok W4 (inv xt)) by (intros a Ha; apply B1 in Ha; unfold W4; auto).
  assert (W2 : wrok W4 (inv xta)) by (intros a Ha; apply B2 in Ha; unfold W4; rewrite N1; auto).
  assert (W3 : wrok W4 (inv yt)) by (intros a Ha; apply B3 in Ha; unfold W4; rewrite N2, N1; auto).
  assert (W5 : wrok W4 (inv yta)) by (intros a Ha; apply B4 in Ha; unfold W4; rewrite N3, N2, N1; auto).
  assert (Dj : forall (P P' : addr -> Prop) a b, (forall z, P z -> fst z = a) -> (forall z, P' z -> fst z = b) -> a <> b -> disj P P').
  { intros P P' a b HP HP' Hne z Hz Hz'. apply HP in Hz. apply HP' in Hz'. lia. }
  assert (Old : forall P : addr -> Prop, (forall a, P a -> fst a < next m) -> disj P O) by (intros P HP a HH1 HH2; apply HP in HH1; unfold O in HH2; lia).
  assert (Ox : forall a, inv x a -> fst a < next m) by (intros a Ha; apply inv_blk in Ha; lia).
  assert (Oy : forall a, inv y a -> fst a < next m) by (intros a Ha; apply inv_blk in Ha; lia).
  assert (Sub : forall (P P' : addr -> Prop) b, (forall z, P z -> fst z < next m) -> (forall z, P' z -> fst z = b) -> next m <= b -> disj P P').
  { intros P P' b HP HP' Hb z Hz Hz'. apply HP in Hz. apply HP' in Hz'. lia. }
  assert (Fr : forall a, incb rb a -> fst a < next m) by (intros a Ha; apply BF; unfold inh2b; auto).
  assert (Fc : forall a, incb cb a -> fst a < next m) by (intros a Ha; apply BF; unfold inh2b; auto).
  assert (Fh : forall a, inh2 h a -> fst a < next m) by (intros a Ha; apply BF; unfold inh2b; auto).
  assert (KO : forall (P : addr -> Prop) b (ma mb : mem K), (forall z, P z -> fst z = b) -> next m <= b < next m + 4 -> keeps P ma mb -> keeps O ma mb).
  { intros P b ma mb HP Hb Hk. eapply keeps_mono; [|exact Hk]. intros z Hz. apply HP in Hz. unfold O. lia. }
  assert (Ext' : vdim xt = cb_ktree cb) by (rewrite Ext; reflexivity). assert (Exta' : vdim xta = cb_ktree rb) by (rewrite Exta; reflexivity).
  assert (Eyt' : vdim yt = cb_ktree rb) by (rewrite Eyt; reflexivity). assert (Eyta' : vdim yta = cb_ktree cb) by (rewrite Eyta; reflexivity).
  assert (Af : forall v n0 (ma mb : mem K) b (P : addr -> Prop), v = Vec n0 0 (vdim v) true -> valloc ma v -> keeps P ma mb -> (forall z, P z -> fst z = b) -> n0 <> b -> valloc mb v).
  { intros v n0 ma mb b P Ev Hv Hk HP Hne. eapply valloc_keeps; [exact Hv|exact Hk|]. intros z Hz Hz'. apply inv_blk in Hz. apply HP in Hz'. rewrite Ev in Hz. cbn in Hz. lia. }
  apply wp_bind. eapply wp_clear_avector; [|exact W3|].
  { eapply (Af yt (next m2) m3 m4 (next m3)); [rewrite Eyt; reflexivity|exact Ha3|exact K4|cbn; auto|lia]. }
  intros m5 Hy5 K5. pose proof (KO _ _ _ _ B3 ltac:(lia) K5) as K5o.
  apply wp_bind. eapply wp_clear_avector; [|exact W5|].
  { eapply valloc_keeps; [exact Ha4|exact K5|]. eapply Dj; [exact B4|exact B3|lia]. }
  intros m6 Hya6 K6. pose proof (KO _ _ _ _ B4 ltac:(lia) K6) as K6o.
  assert (T6 : keeps O m m6) by (eapply keeps_trans; [eapply keeps_trans; [exact T4|exact K5o]|exact K6o]).
  apply wp_bind. eapply (wp_forward L idx cb) with (X := fun p => f (gi p)) (ip := gi); [exact Oc|exact Pc| |exact Ext'| | | | | | |exact W1|].
  { eapply cbinit_keeps; [exact Ic|exact T6|apply Old, Fc]. }
  { eapply valloc_keeps; [|exact K6|eapply Dj; [exact B1|exact B4|lia]]. eapply valloc_keeps; [|exact K5|eapply Dj; [exact B1|exact B3|lia]].
    eapply valloc_keeps; [|exact K4|eapply Dj; [exact B1|cbn; intros z Hz; exact Hz|lia]]. eapply valloc_keeps; [|exact K3|eapply Dj; [exact B1|cbn; intros z Hz; exact Hz|lia]].
    eapply valloc_keeps; [exact Ha1|exact K2|eapply Dj; [exact B1|cbn; intros z Hz; exact Hz|lia]]. }
  { rewrite Eo, Es. eapply perm_src_keeps; [|exact T6|apply Old, Ox]. intros p Hp. split; [apply Pr1, Hp|]. split; [rewrite Ex; apply Pr2, Hp|]. apply Hx. rewrite Ex. apply Pr2, Hp. }
  { eapply Sub; [exact Ox|exact B1|lia]. }
  { eapply Sub; [exact Fc|exact B1|lia]. }
  { apply Lift. intros a Ha. apply Rh. unfold inh2b; auto. }
  { apply Lift, Rx. }
  intros m7 XT Hx7 HX7 K7. pose proof (KO _ _ _ _ B1 ltac:(lia) K7) as K7o.
  assert (T7 : keeps O m m7) by (eapply keeps_trans; [exact T6|exact K7o]).
  assert (HX : fwd_of (cbmat m) cb (fun p => f (gi p)) XT) by (eapply fwd_of_keeps; [exact Oc|exact T6|apply Old, Fc|exact HX7]).
  apply wp_bind. eapply (wp_forward L idx rb) with (X := fun p => f (gi p)) (ip := gi); [exact Or|exact Pr| |exact Exta'| | | | | | |exact W2|].
  { eapply cbinit_keeps; [exact Ir|exact T7|apply Old, Fr]. }
  { eapply valloc_keeps; [|exact K7|eapply Dj; [exact B2|exact B1|lia]].
    eapply valloc_keeps; [|exact K6|eapply Dj; [exact B2|exact B4|lia]]. eapply valloc_keeps; [|exact K5|eapply Dj; [exact B2|exact B3|lia]].
    eapply valloc_keeps; [|exact K4|eapply Dj; [exact B2|cbn; intros z Hz; exact Hz|lia]]. eapply valloc_keeps; [exact Ha2|exact K3|eapply Dj; [exact B2|cbn; intros z Hz; exact Hz|lia]]. }
  { eapply perm_src_keeps; [|exact T7|apply Old, Ox]. intros p Hp. split; [apply Pr1, Hp|]. split; [rewrite Ex; apply Pr2, Hp|]. apply Hx. rewrite Ex. apply Pr2, Hp. }
  { eapply Sub; [exact Ox|exact B2|lia]. }
  { eapply Sub; [exact Fr|exact B2|lia]. }
  { apply Lift. intros a Ha. apply Rh. unfold inh2b; auto. }
  { apply Lift, Rx. }
  intros m8 XA Hx8 HX8 K8. pose proof (KO _ _ _ _ B2 ltac:(lia) K8) as K8o.
  assert (T8 : keeps O m m8) by (eapply keeps_trans; [exact T7|exact K8o]).
  assert (HZ : fwd_of (cbmat m) rb (fun p => f (gi p)) XA) by (eapply fwd_of_keeps; [exact Or|exact T7|apply Old, Fr|exact HX8]).
  apply wp_bind. eapply (wp_h2_diag (cbmat m) h R W4 alpha xt xta yt yta D (fun p => f (gi p)) XT XA (fun _ => f0) (fun _ => f0) m8).
  { eapply h2low_keeps; [exact Hlow|exact T8|apply Old, Fh]. }
  { exact Or. }
  { exact Oc. }
  { split; [|split; [|split; [|split; [|split; [|split; [|split]]]]]]; try assumption.
    - eapply vval_keeps; [exact Hx7|exact K8|eapply Dj; [exact B1|exact B2|lia]].
    - eapply vval_keeps; [|exact K8|eapply Dj; [exact B3|exact B2|lia]]. eapply vval_keeps; [|exact K7|eapply Dj; [exact B3|exact B1|lia]].
      eapply vval_keeps; [exact Hy5|exact K6|eapply Dj; [exact B3|exact B4|lia]].
    - eapply vval_keeps; [|exact K8|eapply Dj; [exact B4|exact B2|lia]]. eapply vval_keeps; [exact Hya6|exact K7|eapply Dj; [exact B4|exact B1|lia]]. }
  { split; [split|split; [split|split; [|split]]].
    - eapply Dj; [exact B1|exact B3|lia].
    - eapply Dj; [exact B1|exact B4|lia].
    - eapply Dj; [exact B2|exact B3|lia].
    - eapply Dj; [exact B2|exact B4|lia].
    - eapply Dj; [exact B3|exact B4|lia].
    - eapply Sub; [exact Fh|exact B3|lia].
    - eapply Sub; [exact Fh|exact B4|lia]. }
  { split; [apply Lift; intros a Ha; apply Rh; unfold inh2b; auto|]. split; [apply rdok_w, W1|]. split; [apply rdok_w, W2|]. split; [exact W3|exact W5]. }
  { exact HX. }
  { exact HZ. }
  fold rb cb n. intros m9 Y9 YA9 Hy9 Hya9 HB9 K9.
  assert (K9o : keeps O m8 m9) by (eapply keeps_mono; [|exact K9]; intros a [Ha|Ha]; [apply B3 in Ha|apply B4 in Ha]; unfold O; lia).
  assert (T9 : keeps O m m9) by (eapply keeps_trans; [exact T8|exact K9o]).
  assert (Cy : forall a, cells (fun p => va y (gi p)) n a -> inv y a).
  { intros a (p & Hp & ->). exists (gi p). split; [rewrite Ey; apply Pr2, Hp|reflexivity]. }
  assert (Hinj : injn gi n) by (intros i j Hi Hj E; apply Pr3; assumption).
  apply wp_bind. eapply (wp_backward L idx rb) with (Y := Y9) (B := fun p => g (gi p)) (ip := gi); [exact Or|exact Pr| |exact Eyt'|exact Hy9| |exact Hinj| | | | |exact W3| |].
  { eapply cbinit_keeps; [exact Ir|exact T9|apply Old, Fr]. }
  { intros p Hp. split; [apply Pr1, Hp|]. split; [rewrite Ey; apply Pr2, Hp|]. rewrite (proj2 T9); [apply Hy; rewrite Ey; apply Pr2, Hp|]. unfold O. cbn. lia. }
  { intros a Ha Hb. apply B3 in Ha. apply Cy, Oy in Hb. lia. }
  { eapply Sub; [exact Fr|exact B3|lia]. }
  { intros a Ha Hb. apply (Dhy a); [right; left; exact Ha|apply Cy, Hb]. }
  { apply Lift. intros a Ha. apply Rh. unfold inh2b; auto. }
  { intros a Ha. unfold W4. left; left; left; left. apply Wy, Cy, Ha. }
  fold n. intros m10 Hy10 _ K10.
  assert (T10 : keeps (fun a => O a \/ inv y a) m m10).
  { eapply keeps_trans; [eapply keeps_mono; [|exact T9]; auto|]. eapply keeps_mono; [|exact K10]. intros a [Ha|Ha]; [apply B3 in Ha; left; unfold O; lia|right; apply Cy, Ha]. }
  assert (Oc' : disj (incb cb) (fun a => O a \/ inv y a)).
  { intros a Ha [Hb|Hb]; [apply Fc in Ha; unfold O in Hb; lia|]. apply (Dhy a); [right; right; exact Ha|exact Hb]. }
  apply wp_bind. eapply (wp_backward L idx cb) with (Y := YA9) (B := fun p => (g (gi p) + bwd_of (cbmat m9) rb Y9 p)%F) (ip := gi); [exact Oc|exact Pc| |exact Eyta'| | | | | | | |exact W5| |].
  { eapply cbinit_keeps; [exact Ic|exact T10|exact Oc']. }
  { eapply vval_keeps; [exact Hya9|exact K10|]. intros a Ha [Hb|Hb]; [apply B3 in Hb; apply B4 in Ha; lia|]. apply Cy, Oy in Hb. apply B4 in Ha. lia. }
  { rewrite Eo, Es. intros p Hp. split; [apply Pr1, Hp|]. split; [rewrite Ey; apply Pr2, Hp|]. apply Hy10, Hp. }
  { rewrite Es. exact Hinj. }
  { rewrite Es. intros a Ha Hb. apply B4 in Ha. apply Cy, Oy in Hb. lia. }
  { eapply Sub; [exact Fc|exact B4|lia]. }
  { rewrite Es. intros a Ha Hb. apply (Dhy a); [right; right; exact Ha|apply Cy, Hb]. }
  { apply Lift. intros a Ha. apply Rh. unfold inh2b; auto. }
  { rewrite Es. intros a Ha. unfold W4. left; left; left; left. apply Wy, Cy, Ha. }
  rewrite Es. fold n. intros m11 Hy11 _ K11.
  assert (NX : S (S (S (S (next m)))) <= next m11).
  { pose proof (proj1 K5). pose proof (proj1 K6). pose proof (proj1 K7). pose proof (proj1 K8). pose proof (proj1 K9). pose proof (proj1 K10). pose proof (proj1 K11). lia. }
  apply wp_bind. eapply wp_untmp2; [exact Eyta|lia|intros o; unfold W4; cbn; auto|].
  apply wp_bind. eapply wp_untmp2; [exact Eyt|cbn; lia|intros o; unfold W4; cbn; auto|].
  apply wp_bind. eapply wp_untmp2; [exact Exta|cbn; lia|intros o; unfold W4; cbn; auto|].
  eapply wp_untmp2; [exact Ext|cbn; lia|intros o; unfold W4; cbn; auto 6|].
  assert (Hres : forall p, p < n -> get m11 (va y (gi p)) = Val (g (gi p) + alpha * mvec n (fun i j => A (gi i) (gi j)) (fun q => f (gi q)) p)%F).
  { intros p Hp. rewrite Hy11 by exact Hp. f_equal.
    rewrite (bwd_of_keeps _ m m9 rb Y9 p Or Hp T9 (Old _ Fr)). rewrite (bwd_of_keeps _ m m10 cb YA9 p Oc ltac:(lia) T10 Oc').
    specialize (HB9 p Hp). rewrite (bwd_of_0 L _ rb (fun _ => f0) p Or) in HB9 by reflexivity. rewrite (bwd_of_0 L _ cb (fun _ => f0) p Oc) in HB9 by reflexivity.
    transitivity (g (gi p) + (bwd_of (cbmat m) rb Y9 p + bwd_of (cbmat m) cb YA9 p))%F; [ring|]. rewrite HB9. unfold mvec.
    rewrite (sum_ext n (fun q => herm_of D p q * f (gi q))%F (fun q => A (gi p) (gi q) * f (gi q))%F); [ring|]. intros q Hq. rewrite HA by assumption. reflexivity. }
  apply HQ.
  - rewrite Ex. apply (h2_orig L y (fun p => g (gi p)) (fun p => f (gi p)) f g alpha n n gi gi A); auto.
    intros p Hp. rewrite !get_dealloc. cbn [fst va].
    repeat match goal with |- context [vblk y =? ?b] => destruct (Nat.eqb_spec (vblk y) b); [lia|] end. apply Hres, Hp.
  - assert (T11 : keeps (fun a => O a \/ inv y a) m m11).
    { eapply keeps_trans; [exact T10|]. eapply keeps_mono; [|exact K11]. intros a [Ha|Ha]; [apply B4 in Ha; left; unfold O; lia|right; apply Cy, Ha]. }
    do 4 (apply keeps_dealloc; [lia|]). eapply keeps_mono; [|exact T11]. intros a [Ha|Ha]; [|auto 6]. unfold O in Ha. rewrite N3, N2, N1. tauto.
Qed.
End H2P5.
