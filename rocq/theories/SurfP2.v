(** * Surface meshes: normal vectors, translation, scaling, merging *)
From Coq Require Import Arith ZArith Lia List Bool Ring.
From Verif Require Import Fld Ord Prog Arr HmSpec Tri2d Tri2dP Tri2dP2 Surf SurfSpec SurfP.
Import ListNotations.
Local Open Scope nat_scope.

Lemma nth_ext' {A} (a b : list A) : length a = length b ->
  (forall i, i < length a -> nth_error a i = nth_error b i) -> a = b.
Proof.
  revert b. induction a as [|x a IH]; intros [|y b] H E; cbn in *; try lia; [reflexivity|].
  f_equal.
  - specialize (E 0 ltac:(lia)). cbn in E. congruence.
  - apply IH; [lia|]. intros i Hi. apply (E (S i)). lia.
Qed.
Lemma aval_inj {A} (a b : arr A) n f : aval a n f -> aval b n f -> a = b.
Proof.
  intros [H1 H2] [H3 H4]. apply nth_ext'; [congruence|]. intros i Hi. rewrite H2, H4 by lia. reflexivity.
Qed.

(** Replacing the entries of an array from left to right. *)
Lemma rok_aset_sweep {A} (a : arr A) n f g i x (Q : arr A -> Prop) :
  aval a n (fun p => if p <? i then g p else f p) -> i < n -> x = g i ->
  (forall a', aval a' n (fun p => if p <? S i then g p else f p) -> Q a') -> rok (aset a i x) Q.
Proof.
  intros Ha Hi Hx HQ. eapply rok_aset; [exact Ha|exact Hi|]. intros a' Ha'. apply HQ.
  eapply aval_ext; [exact Ha'|]. intros p _. cbv beta. unfold afupd.
  destruct (Nat.eqb_spec p i) as [E|N].
  - subst p. destruct (Nat.ltb_spec i (S i)); [exact Hx|lia].
  - destruct (Nat.ltb_spec p (S i)), (Nat.ltb_spec p i); try lia; reflexivity.
Qed.

Section Prepare.
  Context {K : fops} (sq : K -> K).

  Lemma run_diff (x : arr K) n f p q : table x 3 n f -> p < n -> q < n ->
    diff x p q = Ok ((f p 0%nat - f q 0%nat)%F, (f p 1%nat - f q 1%nat)%F, (f p 2%nat - f q 2%nat)%F).
  Proof. intros H Hp Hq. unfold diff. rewrite !(tget _ _ _ _ _ _ H) by lia. reflexivity. Qed.

  Definition unit_n (w : sview K) (i c : nat) : K := (cross w i c / sq (len2 w i))%F.
  Definition gram (w : sview K) (i : nat) : K := sq (len2 w i).

  Lemma run_prepare (m : surface3d K) w : surf_is m w ->
    (forall i j, i < vT w -> j < 3 -> vt w i j < vV w) ->
    rok (prepare_surface3d sq m) (fun r => surf_is r w /\ has_normals r (vT w) (unit_n w) (gram w)).
  Proof.
    intros Hm HT. pose proof Hm as (EV & EE & ET & Tx & Te & Tt & Ts & Ln & Lg).
    unfold prepare_surface3d. rewrite ET. apply rok_bind.
    apply (rok_for (fun i s =>
      aprt (fst s) (3 * vT w) (fun p => p < 3 * i) (fun p => unit_n w (p / 3) (p mod 3)) /\
      aprt (snd s) (vT w) (fun p => p < i) (gram w))).
    - split; split; cbn [fst snd]; auto; intros; lia.
    - intros i [n g] Hi [Hn Hg]; cbn [fst snd] in *. unfold prepare_triangle.
      rewrite !(tget _ _ _ _ i _ Tt) by lia. cbn [rbind].
      rewrite !(run_diff _ _ _ _ _ Tx) by (apply HT; lia). cbn [rbind].
      apply rok_bind. eapply rok_aset_next; [exact Hg|lia|reflexivity|]. intros g' Hg'.
      apply rok_bind. eapply rok_aset_next; [rewrite Nat.add_0_r; exact Hn|lia| |].
      { destruct (divmod 3 i 0 ltac:(lia)) as [-> ->]. reflexivity. }
      rewrite Nat.add_0_r. replace (S (3 * i)) with (3 * i + 1) by lia. intros n1 Hn1.
      apply rok_bind. eapply rok_aset_next; [exact Hn1|lia| |].
      { destruct (divmod 3 i 1 ltac:(lia)) as [-> ->]. reflexivity. }
      replace (S (3 * i + 1)) with (3 * i + 2) by lia. intros n2 Hn2.
      apply rok_bind. eapply rok_aset_next; [exact Hn2|lia| |].
      { destruct (divmod 3 i 2 ltac:(lia)) as [-> ->]. reflexivity. }
      intros n3 Hn3. cbn [rok fst snd]. split; [|exact Hg'].
      eapply aprt_ext; [exact Hn3| |]; cbv beta; intros; [lia|reflexivity].
    - intros [n g] [Hn Hg]; cbn [fst snd] in *. cbn [rok]. change (0 + vT w) with (vT w) in *.
      assert (An : table n 3 (vT w) (unit_n w)) by (eapply aprt_aval; [|exact Hn]; auto).
      assert (Ag : aval g (vT w) (gram w)) by (eapply aprt_aval; [|exact Hg]; auto).
      split; [|split; assumption].
      unfold surf_is; cbn [s3_vertices s3_edges s3_triangles s3_x s3_e s3_t s3_s s3_n s3_g].
      exact (conj EV (conj EE (conj eq_refl (conj Tx (conj Te (conj Tt (conj Ts (conj (proj1 An) (proj1 Ag))))))))).
  Qed.

  (** ** Translation *)
  Definition moved (w : sview K) (f : nat -> nat -> K) : sview K := SV (vV w) (vE w) (vT w) f (ve w) (vt w) (vs w).

  Lemma run_translate (m : surface3d K) w d df : surf_is m w -> aval d 3 df ->
    (forall i j, i < vT w -> j < 3 -> vt w i j < vV w) ->
    let w' := moved w (fun i j => (vx w i j + df j)%F) in
    rok (translate_surface3d sq m d) (fun r => surf_is r w' /\ has_normals r (vT w) (unit_n w') (gram w')).
  Proof.
    intros Hm Hd HT w'. pose proof Hm as (EV & EE & ET & Tx & Te & Tt & Ts & Ln & Lg).
    unfold translate_surface3d. rewrite EV. apply rok_bind.
    set (g := fun p => (vx w (p / 3) (p mod 3) + df (p mod 3))%F).
    set (f := fun p => vx w (p / 3) (p mod 3)).
    apply (rok_for (fun i x => aval x (3 * vV w) (fun p => if p <? 3 * i then g p else f p))).
    - eapply aval_ext; [exact Tx|]. intros p _. reflexivity.
    - intros i x Hi Hx.
      apply (rok_for (fun j x => aval x (3 * vV w) (fun p => if p <? 3 * i + j then g p else f p))).
      + rewrite Nat.add_0_r. exact Hx.
      + intros j y Hj Hy. rewrite (aval_get _ _ _ (3 * i + j) Hy) by lia. cbn [rbind].
        rewrite (aval_get _ _ _ j Hd) by lia. cbn [rbind].
        eapply rok_aset_sweep; [exact Hy|lia| |].
        * destruct (Nat.ltb_spec (3 * i + j) (3 * i + j)); [lia|]. unfold f, g.
          destruct (divmod 3 i j ltac:(lia)) as [_ ->]. reflexivity.
        * intros a' Ha'. rewrite Nat.add_succ_r. exact Ha'.
      + intros y Hy. eapply aval_ext; [exact Hy|]. intros p _. cbv beta.
        replace (3 * S i) with (3 * i + (0 + 3)) by lia. reflexivity.
    - intros x Hx. apply (run_prepare _ w'); [|exact HT].
      unfold surf_is; cbn [s3_vertices s3_edges s3_triangles s3_x s3_e s3_t s3_s s3_n s3_g w' moved vV vE vT ve vt vs].
      refine (conj eq_refl (conj EE (conj ET (conj _ (conj Te (conj Tt (conj Ts (conj Ln Lg)))))))).
      eapply aval_ext; [exact Hx|]. intros p Hp. cbv beta. destruct (Nat.ltb_spec p (3 * (0 + vV w))); [reflexivity|lia].
  Qed.

  Variable L : field_laws K.
  Add Ring surf_ring2 : (rl_ring K (fl_ring K L)).

  Lemma cross_moved w df i c :
    cross (moved w (fun i j => (vx w i j + df j)%F)) i c = cross w i c.
  Proof.
    unfold cross, moved; cbn [vx vt].
    assert (E : forall a b d : K, (a + d - (b + d))%F = (a - b)%F).
    { intros. ring. }
    rewrite !E. reflexivity.
  Qed.
End Prepare.

(** ** Merging *)
Section Merge.
  Context {K : fops}.

  Lemma run_copy3 {A} (g : A -> A) (src : arr A) n f (dst : arr A) i off N :
    table src 3 n f -> i < n -> length dst = 3 * N -> i + off < N ->
    rok (copy3 g src 3 dst 3 i off) (fun dst => length dst = 3 * N).
  Proof.
    intros Hs Hi Hl Ho. unfold copy3. apply (rok_for (fun _ d => length d = 3 * N)); [exact Hl| |auto].
    intros j d Hj Hd. rewrite (tget _ _ _ _ i j Hs) by lia. cbn [rbind]. unfold aset.
    destruct (Nat.ltb_spec (3 * (i + off) + j) (length d)); [|lia]. cbn. rewrite lupd_length. exact Hd.
  Qed.

  Lemma merge_overflow (m1 m2 : surface3d K) w1 w2 : surf_is m1 w1 -> surf_is m2 w2 -> 0 < vE w1 ->
    merge_surface3d m1 m2 = Err EBounds.
  Proof.
    intros H1 H2 HE. pose proof H1 as (EV & EE & ET & Tx & Te & _). pose proof H2 as (EV2 & EE2 & _ & Tx2 & _).
    unfold merge_surface3d, new_surface3d; cbn [s3_x s3_e]. rewrite EV, EV2, EE, EE2.
    match goal with |- rbind ?a _ = _ => destruct (rok_inv a (fun d => length d = 3 * (vV w1 + vV w2))) as (x & -> & Hx) end.
    { apply (rok_for (fun _ d => length d = 3 * (vV w1 + vV w2))); [apply repeat_length| |auto].
      intros i d Hi Hd. eapply run_copy3; [exact Tx|lia|exact Hd|lia]. }
    cbn [rbind].
    match goal with |- rbind ?a _ = _ => destruct (rok_inv a (fun d => length d = 3 * (vV w1 + vV w2))) as (x2 & -> & Hx2) end.
    { apply (rok_for (fun _ d => length d = 3 * (vV w1 + vV w2))); [exact Hx| |auto].
      intros i d Hi Hd. eapply run_copy3; [exact Tx2|lia|exact Hd|lia]. }
    cbn [rbind].
    match goal with |- rbind ?a _ = _ => enough (E : a = Err EBounds) by (rewrite E; reflexivity) end.
    replace (vE w1) with ((vE w1 - 1) + 1) at 1 by lia. rewrite rfor_app.
    match goal with |- rbind ?a _ = _ => destruct (rok_inv a (fun d => length d = 2 * (vE w1 + vE w2))) as (e & -> & He) end.
    { apply (rok_for (fun _ d => length d = 2 * (vE w1 + vE w2))); [apply repeat_length| |auto].
      intros i d Hi Hd. unfold copy3. apply (rok_for (fun _ d => length d = 2 * (vE w1 + vE w2))); [exact Hd| |auto].
      intros j d' Hj Hd'. rewrite (aval_get _ _ _ (2 * i + j) Te) by lia. cbn [rbind]. unfold aset.
      destruct (Nat.ltb_spec (2 * (i + 0) + j) (length d')); [|lia]. cbn. rewrite lupd_length. exact Hd'. }
    cbn [rbind rfor]. change (0 + (vE w1 - 1)) with (vE w1 - 1). unfold copy3. cbn [rfor].
    rewrite (aval_get _ _ _ (2 * (vE w1 - 1) + 0) Te) by lia. cbn [rbind].
    unfold aset at 1. destruct (Nat.ltb_spec (2 * (vE w1 - 1 + 0) + 0) (length e)); [|lia]. cbn [rbind].
    rewrite (aval_get _ _ _ (2 * (vE w1 - 1) + 1) Te) by lia. cbn [rbind].
    unfold aset at 1. rewrite lupd_length.
    destruct (Nat.ltb_spec (2 * (vE w1 - 1 + 0) + 1) (length e)); [|lia]. cbn [rbind].
    unfold aget at 1. replace (nth_error (s3_e m1) (2 * (vE w1 - 1) + 2)) with (@None (option nat)).
    - reflexivity.
    - symmetry. apply nth_error_None. rewrite (proj1 Te). lia.
  Qed.
End Merge.

(** ** Scaling *)
Lemma rok_and_pure {A} (r : res A) (Q : A -> Prop) (R : Prop) : R -> rok r Q -> rok r (fun x => Q x /\ R).
Proof. intros HR H. eapply rok_conseq; [exact H|]. auto. Qed.
Section Scale.
  Context {K : ofops} (sq : K -> K) (big : K).

  Lemma run_minmax (x : arr K) n f j : table x 3 n f -> j < 3 -> exists p, minmax big x n j = Ok p.
  Proof.
    intros H Hj. assert (G : rok (minmax big x n j) (fun _ => True)).
    { unfold minmax. apply (rok_for (fun _ _ => True)); auto. intros i [mn mx] Hi _.
      rewrite (tget _ _ _ _ i j H) by lia. exact I. }
    destruct (rok_inv _ _ G) as (p & E & _). eauto.
  Qed.

  (** The direction that determines the factor. *)
  Definition sdir (q : nat -> K) : nat :=
    if flt (q 1) (q 0) then (if flt (q 2) (q 0) then 0 else 2) else (if flt (q 2) (q 1) then 1 else 2).

  Lemma run_scale (m : surface3d K) w a b af bf : surf_is m w -> aval a 3 af -> aval b 3 bf ->
    (forall i j, i < vT w -> j < 3 -> vt w i j < vV w) ->
    exists alpha beta r, scale_surface3d sq big m a b = Ok r /\
      (surf_is r (moved w (fun i j => (alpha + beta * vx w i j)%F)) /\
       (let w' := moved w (fun i j => (alpha + beta * vx w i j)%F) in has_normals r (vT w') (unit_n sq w') (gram sq w'))) /\
      exists mn mx, (forall j, j < 3 -> minmax big (s3_x m) (vV w) j = Ok (mn j, mx j)) /\
        let d := sdir (fun j => (mx j - mn j) / (bf j - af j))%F in
        beta = ((bf d - af d) / (mx d - mn d))%F /\ alpha = (af d - beta * mn d)%F.
  Proof.
    intros Hm Ha Hb HT. pose proof Hm as (EV & EE & ET & Tx & Te & Tt & Ts & Ln & Lg).
    unfold scale_surface3d. rewrite EV.
    destruct (run_minmax _ _ _ 0 Tx ltac:(lia)) as ([mn0 mx0] & M0).
    destruct (run_minmax _ _ _ 1 Tx ltac:(lia)) as ([mn1 mx1] & M1).
    destruct (run_minmax _ _ _ 2 Tx ltac:(lia)) as ([mn2 mx2] & M2). rewrite M0, M1, M2. cbn [rbind].
    rewrite !(aval_get _ _ _ _ Ha), !(aval_get _ _ _ _ Hb) by lia. cbn [rbind].
    match goal with |- exists alpha beta r, rbind (rfor _ _ (fun j x => rfor _ _ (fun i x =>
        rbind _ (fun y => aset _ _ (?al + ?be * y)%F)) _) _) _ = _ /\ _ =>
      set (A := al); set (B := be) end.
    exists A, B. apply rok_inv. apply rok_and_pure; [exists (fun j => pick j mn0 mn1 mn2), (fun j => pick j mx0 mx1 mx2); split;
      [intros [|[|[|j]]] Hj; [exact M0|exact M1|exact M2|lia]|]; unfold A, B, sdir; cbv zeta; cbn [pick];
      repeat match goal with |- context [if flt ?u ?v then _ else _] => destruct (flt u v) end; cbn [pick]; split; reflexivity|].
    set (h := fun p => (A + B * vx w (p / 3) (p mod 3))%F).
    set (f := fun p => vx w (p / 3) (p mod 3)).
    set (old := fun i j p => (p mod 3 <? j) || ((p mod 3 =? j) && (p / 3 <? i))).
    apply rok_bind.
    apply (rok_for (fun j x => aval x (3 * vV w) (fun p => if old 0 j p then h p else f p))).
    - eapply aval_ext; [exact Tx|]. intros p _. unfold old.
      destruct (Nat.ltb_spec (p mod 3) 0); [lia|]. destruct (Nat.ltb_spec (p / 3) 0); [lia|].
      rewrite andb_false_r. reflexivity.
    - intros j x Hj Hx.
      apply (rok_for (fun i x => aval x (3 * vV w) (fun p => if old i j p then h p else f p))).
      + exact Hx.
      + intros i y Hi Hy. rewrite (aval_get _ _ _ (3 * i + j) Hy) by lia. cbn [rbind].
        assert (O : old i j (3 * i + j) = false).
        { unfold old. destruct (divmod 3 i j ltac:(lia)) as [-> ->].
          destruct (Nat.ltb_spec j j); [lia|]. destruct (Nat.ltb_spec i i); [lia|]. apply andb_false_r. }
        rewrite O. eapply rok_aset; [exact Hy|lia|]. intros y' Hy'.
        eapply aval_ext; [exact Hy'|]. intros p Hp. cbv beta. unfold afupd.
        destruct (Nat.eqb_spec p (3 * i + j)) as [->|Np].
        * unfold old. destruct (divmod 3 i j ltac:(lia)) as [E1 E2]. rewrite E1, E2, Nat.eqb_refl.
          destruct (Nat.ltb_spec i (S i)); [|lia]. rewrite orb_true_r. unfold h, f. rewrite E1, E2. reflexivity.
        * replace (old (S i) j p) with (old i j p); [reflexivity|]. unfold old.
          destruct (Nat.ltb_spec (p mod 3) j); [reflexivity|].
          destruct (Nat.eqb_spec (p mod 3) j) as [Ej|]; [|reflexivity].
          destruct (Nat.ltb_spec (p / 3) i); destruct (Nat.ltb_spec (p / 3) (S i)); try lia; try reflexivity.
          exfalso. apply Np. rewrite (Nat.div_mod p 3) at 1 by lia. rewrite Ej. f_equal. f_equal. lia.
      + intros y Hy. eapply aval_ext; [exact Hy|]. intros p Hp. cbv beta.
        replace (old (0 + vV w) j p) with (old 0 (S j) p); [reflexivity|]. unfold old.
        assert (p / 3 < vV w) by (apply Nat.div_lt_upper_bound; lia).
        destruct (Nat.ltb_spec (p / 3) 0); [lia|]. destruct (Nat.ltb_spec (p / 3) (0 + vV w)); [|lia].
        rewrite andb_false_r, andb_true_r, orb_false_r.
        destruct (Nat.ltb_spec (p mod 3) (S j)), (Nat.ltb_spec (p mod 3) j), (Nat.eqb_spec (p mod 3) j); try lia; reflexivity.
    - intros x Hx. eapply rok_conseq.
      + apply (run_prepare sq _ (moved w (fun i j => (A + B * vx w i j)%F))); [|exact HT].
        unfold surf_is; cbn [s3_vertices s3_edges s3_triangles s3_x s3_e s3_t s3_s s3_n s3_g moved vV vE vT ve vt vs].
        refine (conj eq_refl (conj EE (conj ET (conj _ (conj Te (conj Tt (conj Ts (conj Ln Lg)))))))).
        eapply aval_ext; [exact Hx|]. intros p Hp. cbv beta. unfold old.
        pose proof (Nat.mod_upper_bound p 3 ltac:(lia)).
        destruct (Nat.ltb_spec (p mod 3) (0 + 3)); [reflexivity|lia].
      + intros r Hr. exact Hr.
  Qed.
End Scale.
