(** * Krylov methods: preconditioned solver, matrices as operators *)
From Coq Require Import Arith Lia List Bool Ring Field.
From Verif Require Import Fld Prog View Spec Loop Avector AvectorP Amatrix AmatrixP AmatrixP2 Arr Sparse SparseP Norm NormP Factor Lr Chol Qr LrP QrP Krylov KrylovSpec KrylovP KrylovP2 KrylovP3 KrylovP4 KrylovP5.
Import ListNotations.

Section KrylovP6.
Context {K : fops} (L : field_laws K).
Let RL := fl_ring K L.
Add Ring KringK : (rl_ring K (fl_ring K L)).
Add Field KfieldK : (K_field L).
Implicit Types (m : mem K) (F : addr -> Prop).
Notation WP := (wp TT TT).
Notation vect := (nat -> K).

Section Solve.
Variable O : qops K.
Variable ev : addeval_t K.
Variable pc : option (prcd_t K).
Variables (n : nat) (A N : nat -> nat -> K) (F : addr -> Prop) (I : mem K -> Prop).
Hypothesis Hev : op_ok ev n n A F I.
Hypothesis Hpc : prcd_ok pc n N F I.
Variables b x : vec.
Variables bf xf : vect.
Variable m : mem K.
Hypothesis HI : I m.
Hypothesis Hb : vval m b bf.
Hypothesis Hx : vval m x xf.
Hypothesis Hdb : vdim b = n.
Hypothesis Hdx : vdim x = n.
Hypothesis Hbx : disj (inv b) (inv x).
Hypothesis HFb : disj F (inv b).
Hypothesis HFx : disj F (inv x).

Lemma solve_pcg_wp eps maxiter (Q : nat -> mem K -> Prop) :
  let X := cX n A (mvec n N) bf xf in
  let E k := rsqrt O (dot n (cR n A (mvec n N) bf xf k) (cR n A (mvec n N) bf xf k)) in
  let bound := (eps * rsqrt O (dot n bf bf))%F in
  (forall it m', it <= upred maxiter -> vval m' x (X it) -> keeps (inv x) m m' ->
     (it = upred maxiter \/ gtb O (E it) bound = false) -> (forall j, j < it -> gtb O (E j) bound = true) -> Q it m') ->
  WP (solve_pcg_avector O ev pc b x eps maxiter) m Q.
Proof.
  intros X E bound HQ. unfold solve_pcg_avector. rewrite Hdx, Hdb.
  apply wp_bind. apply wp_assert; [apply Nat.eqb_refl|].
  apply wp_bind, wp_init_avector. intros r -> Hr. set (m1 := alloc m n) in *. set (r := Vec (next m) 0 n true) in *.
  apply wp_bind, wp_init_avector. intros q -> Hq. set (m2 := alloc m1 n) in *. set (q := Vec (next m1) 0 n true) in *.
  apply wp_bind, wp_init_avector. intros p -> Hp. set (m3 := alloc m2 n) in *. set (p := Vec (next m2) 0 n true) in *.
  apply wp_bind, wp_init_avector. intros a -> Ha. set (m4 := alloc m3 n) in *. set (a := Vec (next m3) 0 n true) in *.
  assert (N1 : next m1 = S (next m)) by reflexivity. assert (N2 : next m2 = S (next m1)) by reflexivity.
  assert (N3 : next m3 = S (next m2)) by reflexivity. assert (N4 : next m4 = S (next m3)) by reflexivity.
  assert (Hal : forall c, fst c < next m -> get m4 c = get m c).
  { intros c Hc. unfold m4, m3, m2, m1. rewrite !get_alloc_old; [reflexivity|cbn; lia..]. }
  assert (HF : forall c, F c -> fst c < next m) by (intros c Hc; exact (op_old _ _ _ _ _ _ Hev m c HI Hc)).
  assert (Hob : forall c, inv b c -> fst c < next m) by (intros c Hc; exact (vval_old _ _ _ _ Hb Hc)).
  assert (Hox : forall c, inv x c -> fst c < next m) by (intros c Hc; exact (vval_old _ _ _ _ Hx Hc)).
  assert (Hrq : disj (inv r) (inv q)) by (apply disj_vv_blk; cbn; lia).
  assert (Hrp : disj (inv r) (inv p)) by (apply disj_vv_blk; cbn; lia).
  assert (Hra : disj (inv r) (inv a)) by (apply disj_vv_blk; cbn; lia).
  assert (Hqp : disj (inv q) (inv p)) by (apply disj_vv_blk; cbn; lia).
  assert (Hqa : disj (inv q) (inv a)) by (apply disj_vv_blk; cbn; lia).
  assert (Hpa : disj (inv p) (inv a)) by (apply disj_vv_blk; cbn; lia).
  assert (Hsep : separate F [b; x; r; q; p; a]).
  { assert (HP : forall P : addr -> Prop, (forall c, P c -> fst c < next m) -> disj P (inv r) /\ disj P (inv q) /\ disj P (inv p) /\ disj P (inv a)).
    { intros P HP. repeat split; (intros c Hc Hi; apply HP in Hc; apply inv_blk in Hi; cbn in Hi; lia). }
    cbn [separate In]. destruct (HP _ HF) as (? & ? & ? & ?). destruct (HP _ Hob) as (? & ? & ? & ?). destruct (HP _ Hox) as (? & ? & ? & ?).
    repeat split; try assumption; intros y; intuition (subst; auto). }
  assert (Hdim : Forall (fun v => vdim v = n) [b; x; r; q; p; a]) by (repeat constructor; assumption).
  assert (Hst : vst I m4 [b; x; r; q; p; a] m4 [Some bf; Some xf; None; None; None; None]).
  { split; [|split; [apply keeps_refl|]].
    - apply (op_keep _ _ _ _ _ _ Hev m m4 (fun c => next m <= fst c)); [exact HI| |intros c Hc Hc'; apply HF in Hc; lia].
      split; [lia|]. intros c Hc. apply Hal. lia.
    - repeat constructor; cbn.
      + intros i Hi. rewrite Hal; [apply Hb, Hi|]. apply Hob. apply inv_va. exact Hi.
      + intros i Hi. rewrite Hal; [apply Hx, Hi|]. apply Hox. apply inv_va. exact Hi.
      + intros i Hi. unfold m4, m3, m2. rewrite !get_alloc_old by (cbn; lia). apply Hr. exact Hi.
      + intros i Hi. unfold m4, m3. rewrite !get_alloc_old by (cbn; lia). apply Hq. exact Hi.
      + intros i Hi. unfold m4. rewrite !get_alloc_old by (cbn; lia). apply Hp. exact Hi.
      + exact Ha. }
  apply wp_bind. eapply w_norm2 with (i := 0) (n := n); [exact Hst|reflexivity|reflexivity|exact Hdb|]. fold bound.
  apply wp_bind. eapply (w_init_pcg L ev pc n A N F I Hev Hpc b x r q p a Hsep Hdim m4 m4 bf xf); [exact Hst|]. clear Hst. intros m5 Hst.
  apply wp_bind. eapply w_norm2 with (i := 2) (n := n); [exact Hst|reflexivity|reflexivity|reflexivity|].
  change (rsqrt O (dot n (cR n A (mvec n N) bf xf 0) (cR n A (mvec n N) bf xf 0))) with (E 0).
  apply wp_bind.
  eapply (w_kry_loop O _ r bound (fun k mm => exists oq oa, vst I m4 [b; x; r; q; p; a] mm
     [Some bf; Some (X k); Some (cR n A (mvec n N) bf xf k); oq; Some (cP n A (mvec n N) bf xf k); oa]) E).
  - intros k mm Q' (oq & oa & Hs) HQ'. eapply (w_step_pcg L ev pc n A N F I Hev Hpc b x r q p a Hsep Hdim m4 mm bf xf k); [exact Hs|].
    intros m' Hs'. apply HQ'. do 2 eexists. exact Hs'.
  - intros k mm Q' (oq & oa & Hs) HQ'. eapply w_norm2 with (i := 2) (n := n); [exact Hs|reflexivity|reflexivity|reflexivity|exact HQ'].
  - do 2 eexists. exact Hst.
  - clear m5 Hst. intros it m5 Hit (oq & oa & Hst) Hend Hbef.
    assert (Hb4 := vst_get _ _ _ _ _ 0 b bf Hst eq_refl eq_refl).
    assert (Hx4 := vst_get _ _ _ _ _ 1 x (X it) Hst eq_refl eq_refl).
    destruct Hst as (HI4 & Hk4 & _). assert (Hn4 := proj1 Hk4).
    unfold uninit_avector. cbn [vown a p q r vblk bind pfree wp].
    do 3 (split; [cbn [dealloc next]; lia|]; split; [intros; exact Logic.I|]).
    split; [cbn [dealloc next]; lia|]. split; [intros; exact Logic.I|].
    set (m7 := dealloc _ (next m)).
    assert (G7 : forall c, get m7 c = if next m <=? fst c then (if fst c <? next m4 then Free else get m5 c) else get m5 c).
    { intros c. unfold m7. rewrite !get_dealloc. destruct (Nat.leb_spec (next m) (fst c)), (Nat.ltb_spec (fst c) (next m4));
        destruct (Nat.eqb_spec (fst c) (next m)), (Nat.eqb_spec (fst c) (next m1)), (Nat.eqb_spec (fst c) (next m2)), (Nat.eqb_spec (fst c) (next m3)); try reflexivity; lia. }
    assert (Hx7 : vval m7 x (X it)).
    { intros i Hi. rewrite G7. assert (Ho := Hox _ (inv_va x i Hi)). destruct (Nat.leb_spec (next m) (fst (va x i))); [lia|]. apply Hx4. exact Hi. }
    assert (Hb7 : vval m7 b bf).
    { intros i Hi. rewrite G7. assert (Ho := Hob _ (inv_va b i Hi)). destruct (Nat.leb_spec (next m) (fst (va b i))); [lia|]. apply Hb4. exact Hi. }
    apply HQ; [lia|exact Hx7| |destruct Hend; [left; lia|right; assumption]|intros; apply Hbef; lia].
    eapply (keeps_drop (fun c => inv b c \/ inv x c)); [|exact Hb|exact Hb7|tauto].
    split; [unfold m7; cbn [dealloc next]; lia|]. intros c Hc. rewrite G7. destruct (Nat.leb_spec (next m) (fst c)) as [Hlt|Hge].
    + rewrite (get_fresh m c Hlt). destruct (Nat.ltb_spec (fst c) (next m4)); [reflexivity|].
      rewrite (proj2 Hk4). { apply get_fresh. lia. }
      intros (y & Hy & Hi). cbn in Hy. destruct Hy as [<-|[<-|[<-|[<-|[<-|[<-|[]]]]]]]; [tauto|tauto|apply inv_blk in Hi; cbn in Hi; lia..].
    + rewrite (proj2 Hk4); [apply Hal; exact Hge|].
      intros (y & Hy & Hi). cbn in Hy. destruct Hy as [<-|[<-|[<-|[<-|[<-|[<-|[]]]]]]]; [tauto|tauto|apply inv_blk in Hi; cbn in Hi; lia..].
Qed.
End Solve.

(** ** Operators *)
Lemma mval_old m A f a : mval m A f -> inm A a -> fst a < next m.
Proof.
  intros H (i & j & Hi & Hj & ->). specialize (H i j Hi Hj). unfold get in H.
  destruct (Nat.ltb_spec (fst (ma A i j)) (next m)); [assumption|discriminate].
Qed.
Lemma op_amatrix (A : mat) (f : nat -> nat -> K) :
  op_ok (fun alpha x y => addeval_amatrix_avector alpha A x y) (mrows A) (mcols A) f (inm A) (fun m => mval m A f).
Proof.
  constructor.
  - intros m m' W H Hk Hd. eapply mval_keeps; eassumption.
  - intros m a H Ha. eapply mval_old; eassumption.
  - intros alpha x y g h m HA Hx Hy Hdx Hdy Hxy HF.
    eapply wp_ends. eapply wp_addeval_amatrix_avector; try eassumption; try lia; [intros ? _; left; exact I|intros ? _; left; exact I|intros ? _; exact I|].
    intros m' H Hk. split; [|exact Hk]. eapply vval_ext; [exact H|]. cbv beta. intros i Hi. destruct (Nat.ltb_spec i (mrows A)); [reflexivity|lia].
Qed.
Lemma op_amatrix_trans (A : mat) (f : nat -> nat -> K) :
  op_ok (fun alpha x y => addevaltrans_amatrix_avector alpha A x y) (mcols A) (mrows A) (tr true f) (inm A) (fun m => mval m A f).
Proof.
  constructor.
  - intros m m' W H Hk Hd. eapply mval_keeps; eassumption.
  - intros m a H Ha. eapply mval_old; eassumption.
  - intros alpha x y g h m HA Hx Hy Hdx Hdy Hxy HF.
    eapply wp_ends. eapply wp_addevaltrans_amatrix_avector; try eassumption; try lia; [intros ? _; left; exact I|intros ? _; left; exact I|intros ? _; exact I|].
    intros m' H Hk. split; [|exact Hk]. eapply vval_ext; [exact H|]. cbv beta. intros i Hi. destruct (Nat.ltb_spec i (mcols A)); [reflexivity|lia].
Qed.
Lemma op_mvm (A : mat) (f : nat -> nat -> K) (t : bool) :
  op_ok (fun alpha x y => mvm_amatrix_avector alpha t A x y) (if t then mcols A else mrows A) (if t then mrows A else mcols A)
    (tr t f) (inm A) (fun m => mval m A f).
Proof.
  constructor.
  - intros m m' W H Hk Hd. eapply mval_keeps; eassumption.
  - intros m a H Ha. eapply mval_old; eassumption.
  - intros alpha x y g h m HA Hx Hy Hdx Hdy Hxy HF.
    eapply wp_ends. eapply wp_mvm_amatrix_avector; try eassumption; try lia; [intros ? _; left; exact I|intros ? _; left; exact I|intros ? _; exact I|].
    intros m' H Hk. split; [|exact Hk]. eapply vval_ext; [exact H|]. cbv beta. intros i Hi. destruct (Nat.ltb_spec i (if t then mcols A else mrows A)); [reflexivity|lia].
Qed.
(** Sparse matrices. *)
Lemma op_sparse (a : smat K) rs cs vs : swf a rs cs vs -> 0 < srows a -> 0 < scols a ->
  op_ok (fun alpha x y => mvm_sparsematrix_avector alpha false a x y) (srows a) (scols a) (sden rs cs vs) (fun _ => False) (fun _ => True).
Proof.
  intros Ha Hr Hc. constructor; [auto|tauto|].
  intros alpha x y f g m _ Hx Hy Hdx Hdy Hxy _.
  assert (Bx : vblk x < next m) by (eapply (vval_old m x f (va x 0)); [exact Hx|apply inv_va; lia]).
  assert (By : vblk y < next m) by (eapply (vval_old m y g (va y 0)); [exact Hy|apply inv_va; lia]).
  eapply wp_ends. eapply (mv_wp _ _ _ _ _ _ _ (mvm_ok_sparse RL a rs cs vs Ha) _ _ alpha false x y f g); try eassumption; try tauto.
  - intros ? [].
  - intros ? [].
  - intros ? _; left; exact I.
  - intros ? _; exact I.
  - intros m' H Hk. cbv beta in H. rewrite Hdx in H. split; assumption.
Qed.
(** A further invariant. *)
Lemma op_weaken ev r c (M : nat -> nat -> K) F (I : mem K -> Prop) F' (I' : mem K -> Prop) : op_ok ev r c M F I ->
  (forall m m' (W : addr -> Prop), I' m -> keeps W m m' -> disj F' W -> I' m') -> (forall m a, I' m -> F' a -> fst a < next m) ->
  op_ok ev r c M (fun a => F a \/ F' a) (fun m => I m /\ I' m).
Proof.
  intros [H1 H2 H3] H1' H2'. constructor.
  - intros m m' W [HI HI'] Hk Hd. split; [eapply H1; eauto|eapply H1'; eauto]; intros a Ha; apply Hd; tauto.
  - intros m a [HI HI'] [Ha|Ha]; eauto.
  - intros alpha x y f g m [HI HI'] Hx Hy Hdx Hdy Hxy Hd. eapply H3; eauto. intros a Ha; apply Hd; tauto.
Qed.
(** Scaling as a preconditioner. *)
Lemma pc_scale (s : K) n : pc_ok (fun x => scale_avector s x) n (fun i j => s * idf i j)%F (fun _ => False) (fun _ : mem K => True).
Proof.
  constructor; [auto|tauto|]. intros x f m _ Hx Hd _. eapply wp_ends.
  eapply (wp_scale_avector (fun _ => True) (fun _ => True)); [exact Hx|intros ? _; exact I|]. intros m' H Hk. split; [|exact Hk].
  eapply vval_ext; [exact H|]. cbv beta. intros i Hi. unfold mvec.
  rewrite (sum_ext n _ (fun j => s * (idf i j * f j))%F) by (intros; ring). rewrite (sum_mul_l RL).
  fold (mvec n idf f i). rewrite (mvec_id L) by lia. ring.
Qed.
End KrylovP6.
