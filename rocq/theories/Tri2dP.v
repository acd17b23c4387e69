(** * Triangular meshes in the plane: refinement *)
From Coq Require Import Arith Lia List Bool Ring.
From Verif Require Import Fld Prog Arr HmSpec Tri2d Tri2dSpec.
Import ListNotations.

(** ** Filling arrays from left to right *)
Lemma rok_aset_next {A} (a : arr A) n f i x (Q : arr A -> Prop) :
  aprt a n (fun k => k < i) f -> i < n -> x = f i ->
  (forall a', aprt a' n (fun k => k < S i) f -> Q a') -> rok (aset a i x) Q.
Proof.
  intros Ha Hi Hx HQ. eapply rok_aset_prt; [exact Ha|exact Hi|].
  intros a' Ha'. apply HQ. eapply aprt_ext; [exact Ha'| |]; cbv beta.
  - intros k _ Hk. lia.
  - intros k _ Hk. unfold afupd. destruct (Nat.eqb_spec k i); [subst; reflexivity|reflexivity].
Qed.

Definition oprt (b : bool) (a : arr nat) n i f := b = true -> aprt a n (fun k => k < i) f.

Lemma rok_setif_next b (a : arr nat) n f i x (Q : arr nat -> Prop) :
  oprt b a n i f -> i < n -> x = f i ->
  (forall a', oprt b a' n (S i) f -> Q a') -> rok (setif b a i x) Q.
Proof.
  intros Ha Hi Hx HQ. unfold setif. destruct b.
  - eapply rok_aset_next; [apply Ha; reflexivity|exact Hi|exact Hx|].
    intros a' Ha'. apply HQ. intros _. exact Ha'.
  - cbn. apply HQ. intros E. discriminate E.
Qed.

Section Put.
  Context {K : fops} (t2r : bool) (n : nat).

  Definition vinv (fx : nat -> K * K) (fb ff ft : nat -> nat) (i : nat) (s : vstate) : Prop :=
    let '(x, xb, xf, xt, i') := s in
    i' = i /\ aprt x n (fun k => k < i) fx /\ aprt xb n (fun k => k < i) fb /\
    oprt t2r xf n i ff /\ oprt t2r xt n i ft.

  Lemma rok_put_vertex fx fb ff ft i s p b f t :
    vinv fx fb ff ft i s -> i < n -> p = fx i -> b = fb i -> f = ff i -> t = ft i ->
    rok (put_vertex t2r s p b f t) (vinv fx fb ff ft (S i)).
  Proof.
    destruct s as [[[[x xb] xf] xt] i']. intros (-> & H1 & H2 & H3 & H4) Hi Ep Eb Ef Et.
    unfold put_vertex.
    apply rok_bind. eapply rok_aset_next; [exact H1|exact Hi|exact Ep|]. intros x' H1'.
    apply rok_bind. eapply rok_aset_next; [exact H2|exact Hi|exact Eb|]. intros xb' H2'.
    apply rok_bind. eapply rok_setif_next; [exact H3|exact Hi|exact Ef|]. intros xf' H3'.
    apply rok_bind. eapply rok_setif_next; [exact H4|exact Hi|exact Et|]. intros xt' H4'.
    cbn. exact (conj (Nat.add_1_r i) (conj H1' (conj H2' (conj H3' H4')))).
  Qed.

  Definition einv (fe : nat -> nat * nat) (fb ff ft : nat -> nat) (i : nat) (s : estate) : Prop :=
    let '(e, eb, ef, et, i') := s in
    i' = i /\ aprt e n (fun k => k < i) fe /\ aprt eb n (fun k => k < i) fb /\
    oprt t2r ef n i ff /\ oprt t2r et n i ft.

  Lemma rok_put_edge fe fb ff ft i s p b f t :
    einv fe fb ff ft i s -> i < n -> p = fe i -> b = fb i -> f = ff i -> t = ft i ->
    rok (put_edge t2r s p b f t) (einv fe fb ff ft (S i)).
  Proof.
    destruct s as [[[[x xb] xf] xt] i']. intros (-> & H1 & H2 & H3 & H4) Hi Ep Eb Ef Et.
    unfold put_edge.
    apply rok_bind. eapply rok_aset_next; [exact H1|exact Hi|exact Ep|]. intros x' H1'.
    apply rok_bind. eapply rok_aset_next; [exact H2|exact Hi|exact Eb|]. intros xb' H2'.
    apply rok_bind. eapply rok_setif_next; [exact H3|exact Hi|exact Ef|]. intros xf' H3'.
    apply rok_bind. eapply rok_setif_next; [exact H4|exact Hi|exact Et|]. intros xt' H4'.
    cbn. exact (conj (Nat.add_1_r i) (conj H1' (conj H2' (conj H3' H4')))).
  Qed.

  Definition tinv (ft : nat -> nat * nat * nat) (ff : nat -> nat) (i : nat) (s : tstate) : Prop :=
    let '(t, tf, i') := s in
    i' = i /\ aprt t n (fun k => k < i) ft /\ oprt t2r tf n i ff.

  Lemma rok_put_triangle ft ff i s p f :
    tinv ft ff i s -> i < n -> p = ft i -> f = ff i ->
    rok (put_triangle t2r s p f) (tinv ft ff (S i)).
  Proof.
    destruct s as [[x xf] i']. intros (-> & H1 & H3) Hi Ep Ef.
    unfold put_triangle.
    apply rok_bind. eapply rok_aset_next; [exact H1|exact Hi|exact Ep|]. intros x' H1'.
    apply rok_bind. eapply rok_setif_next; [exact H3|exact Hi|exact Ef|]. intros xf' H3'.
    cbn. exact (conj (Nat.add_1_r i) (conj H1' H3')).
  Qed.
End Put.

(** ** Division *)
Lemma divmod n j k : k < n -> (n * j + k) / n = j /\ (n * j + k) mod n = k.
Proof.
  intros H. split.
  - symmetry. apply (Nat.div_unique _ _ _ k); [exact H|reflexivity].
  - symmetry. apply (Nat.mod_unique _ _ j); [exact H|reflexivity].
Qed.

Lemma split_mul n T i : 0 < n -> i < n * T -> exists j k, i = n * j + k /\ k < n /\ j < T.
Proof.
  intros Hn Hi. exists (i / n), (i mod n). split; [apply Nat.div_mod; lia|].
  split; [apply Nat.mod_upper_bound; lia|]. apply Nat.div_lt_upper_bound; lia.
Qed.

(** ** The refined mesh *)
Section Fine.
  Context {K : fops} (w : mview K).

  Definition cv (i1 i2 : nat) : nat :=
    let p := me w i1 in let q := me w i2 in
    if (fst p =? fst q) || (fst p =? snd q) then fst p else snd p.
  Definition hf (i v : nat) : nat := 2 * i + (if fst (me w i) =? v then 0 else 1).

  Definition fx (i : nat) : K * K :=
    if i <? mV w then mx w i
    else let e := me w (i - mV w) in mid (mx w (fst e)) (mx w (snd e)).
  Definition fxb (i : nat) : nat := if i <? mV w then mxb w i else meb w (i - mV w).
  Definition fe (i : nat) : nat * nat :=
    if i <? 2 * mE w then
      match i mod 2 with
      | 0 => (fst (me w (i / 2)), mV w + i / 2)
      | _ => (mV w + i / 2, snd (me w (i / 2)))
      end
    else
      let j := (i - 2 * mE w) / 3 in
      match (i - 2 * mE w) mod 3 with
      | 0 => (mV w + mt w j 1, mV w + mt w j 2)
      | 1 => (mV w + mt w j 2, mV w + mt w j 0)
      | _ => (mV w + mt w j 0, mV w + mt w j 1)
      end.
  Definition feb (i : nat) : nat := if i <? 2 * mE w then meb w (i / 2) else 0.
  Definition ft (i k : nat) : nat :=
    let j := i / 4 in
    let te := 2 * mE w + 3 * j in
    let t := mt w j in
    let v0 := cv (t 1) (t 2) in let v1 := cv (t 2) (t 0) in let v2 := cv (t 0) (t 1) in
    match i mod 4, k with
    | 0, 0 => te | 0, 1 => hf (t 1) v0 | 0, _ => hf (t 2) v0
    | 1, 0 => hf (t 0) v1 | 1, 1 => te + 1 | 1, _ => hf (t 2) v1
    | 2, 0 => hf (t 0) v2 | 2, 1 => hf (t 1) v2 | 2, _ => te + 2
    | _, k => te + k
    end.
  Definition fine : mview K :=
    MV (mV w + mE w) (2 * mE w + 3 * mT w) (4 * mT w) fx fe ft fxb feb.

  Lemma fe_half i h : i < mE w -> h < 2 -> fe (2 * i + h) =
    match h with 0 => (fst (me w i), mV w + i) | _ => (mV w + i, snd (me w i)) end.
  Proof.
    intros Hi Hh. unfold fe. destruct (Nat.ltb_spec (2 * i + h) (2 * mE w)); [|lia].
    destruct (divmod 2 i h Hh) as [-> ->]. reflexivity.
  Qed.
  Lemma feb_half i h : i < mE w -> h < 2 -> feb (2 * i + h) = meb w i.
  Proof.
    intros Hi Hh. unfold feb. destruct (Nat.ltb_spec (2 * i + h) (2 * mE w)); [|lia].
    destruct (divmod 2 i h Hh) as [-> _]. reflexivity.
  Qed.
  Lemma fe_inner j k : j < mT w -> k < 3 -> fe (2 * mE w + 3 * j + k) =
    match k with
    | 0 => (mV w + mt w j 1, mV w + mt w j 2)
    | 1 => (mV w + mt w j 2, mV w + mt w j 0)
    | _ => (mV w + mt w j 0, mV w + mt w j 1)
    end.
  Proof.
    intros Hj Hk. unfold fe. destruct (Nat.ltb_spec (2 * mE w + 3 * j + k) (2 * mE w)); [lia|].
    replace (2 * mE w + 3 * j + k - 2 * mE w) with (3 * j + k) by lia.
    destruct (divmod 3 j k Hk) as [-> ->]. reflexivity.
  Qed.
  Lemma feb_inner j k : feb (2 * mE w + 3 * j + k) = 0.
  Proof. unfold feb. destruct (Nat.ltb_spec (2 * mE w + 3 * j + k) (2 * mE w)); [lia|reflexivity]. Qed.

  Lemma ft_sub j q k : q < 4 -> ft (4 * j + q) k =
    let te := 2 * mE w + 3 * j in
    let t := mt w j in
    let v0 := cv (t 1) (t 2) in let v1 := cv (t 2) (t 0) in let v2 := cv (t 0) (t 1) in
    match q, k with
    | 0, 0 => te | 0, 1 => hf (t 1) v0 | 0, _ => hf (t 2) v0
    | 1, 0 => hf (t 0) v1 | 1, 1 => te + 1 | 1, _ => hf (t 2) v1
    | 2, 0 => hf (t 0) v2 | 2, 1 => hf (t 1) v2 | 2, _ => te + 2
    | _, k => te + k
    end.
  Proof. intros Hq. unfold ft. destruct (divmod 4 j q Hq) as [-> ->]. reflexivity. Qed.

  (** Corners *)
  Lemma cv_joins i1 i2 v a b : joins (me w i1) v a -> joins (me w i2) v b ->
    v <> a -> v <> b -> a <> b -> cv i1 i2 = v.
  Proof.
    intros H1 H2 Na Nb Nab. unfold cv.
    destruct H1 as [-> | ->], H2 as [-> | ->]; cbn [fst snd].
    all: repeat match goal with |- context [?x =? ?y] => destruct (Nat.eqb_spec x y) end; cbn; lia.
  Qed.

  Lemma joins_sym p a b : joins p a b -> joins p b a.
  Proof. intros [H|H]; [right|left]; exact H. Qed.

  Lemma corners_cv j v0 v1 v2 : corners w j v0 v1 v2 ->
    cv (mt w j 1) (mt w j 2) = v0 /\ cv (mt w j 2) (mt w j 0) = v1 /\ cv (mt w j 0) (mt w j 1) = v2.
  Proof.
    intros (N1 & N2 & N3 & _ & J0 & J1 & J2). repeat split.
    - eapply cv_joins; [apply joins_sym; exact J1|exact J2|..]; congruence.
    - eapply cv_joins; [apply joins_sym; exact J2|exact J0|..]; congruence.
    - eapply cv_joins; [apply joins_sym; exact J0|exact J1|..]; congruence.
  Qed.

  Lemma hf_joins i v a : i < mE w -> joins (me w i) v a -> v <> a ->
    joins (fe (hf i v)) v (mV w + i) /\ hf i v < 2 * mE w.
  Proof.
    intros Hi HJ N. unfold hf. destruct HJ as [E|E]; rewrite E; cbn [fst].
    - rewrite Nat.eqb_refl. rewrite fe_half by lia. rewrite E. split; [left; reflexivity|lia].
    - destruct (Nat.eqb_spec a v); [congruence|]. rewrite fe_half by lia. rewrite E.
      split; [right; reflexivity|lia].
  Qed.

  Hypothesis Hok : mesh_ok w.

  Lemma corners_lt j v0 v1 v2 : corners w j v0 v1 v2 -> v0 < mV w /\ v1 < mV w /\ v2 < mV w.
  Proof.
    destruct Hok as (He & _). intros (N1 & N2 & N3 & HE & J0 & J1 & J2).
    pose proof (He _ (HE 0 ltac:(lia))) as P0. pose proof (He _ (HE 1 ltac:(lia))) as P1.
    destruct J0 as [E|E]; rewrite E in P0; cbn in P0; destruct J1 as [E1|E1]; rewrite E1 in P1; cbn in P1; lia.
  Qed.

  Lemma corners_diff j v0 v1 v2 : corners w j v0 v1 v2 ->
    mt w j 0 <> mt w j 1 /\ mt w j 1 <> mt w j 2 /\ mt w j 2 <> mt w j 0.
  Proof.
    intros (N1 & N2 & N3 & HE & J0 & J1 & J2). repeat split; intros E.
    - rewrite E in J0. destruct J0 as [P|P], J1 as [P'|P']; congruence.
    - rewrite E in J1. destruct J1 as [P|P], J2 as [P'|P']; congruence.
    - rewrite E in J2. destruct J2 as [P|P], J0 as [P'|P']; congruence.
  Qed.

  Lemma fine_corners j v0 v1 v2 : j < mT w -> corners w j v0 v1 v2 ->
    let m0 := mV w + mt w j 0 in let m1 := mV w + mt w j 1 in let m2 := mV w + mt w j 2 in
    corners fine (4 * j) v0 m2 m1 /\ corners fine (4 * j + 1) m2 v1 m0 /\
    corners fine (4 * j + 2) m1 m0 v2 /\ corners fine (4 * j + 3) m0 m1 m2.
  Proof.
    intros Hj HC m0 m1 m2.
    destruct (corners_cv _ _ _ _ HC) as (C0 & C1 & C2).
    destruct (corners_lt _ _ _ _ HC) as (L0 & L1 & L2).
    destruct (corners_diff _ _ _ _ HC) as (D0 & D1 & D2).
    pose proof HC as (N1 & N2 & N3 & HE & J0 & J1 & J2).
    pose proof (HE 0 ltac:(lia)) as E0. pose proof (HE 1 ltac:(lia)) as E1.
    pose proof (HE 2 ltac:(lia)) as E2.
    destruct (hf_joins _ v1 v2 E0 J0 ltac:(congruence)) as [A01 B01].
    destruct (hf_joins _ v2 v1 E0 (joins_sym _ _ _ J0) ltac:(congruence)) as [A02 B02].
    destruct (hf_joins _ v2 v0 E1 J1 ltac:(congruence)) as [A12 B12].
    destruct (hf_joins _ v0 v2 E1 (joins_sym _ _ _ J1) ltac:(congruence)) as [A10 B10].
    destruct (hf_joins _ v0 v1 E2 J2 ltac:(congruence)) as [A20 B20].
    destruct (hf_joins _ v1 v0 E2 (joins_sym _ _ _ J2) ltac:(congruence)) as [A21 B21].
    pose proof (fe_inner j 0 Hj ltac:(lia)) as I0. pose proof (fe_inner j 1 Hj ltac:(lia)) as I1.
    pose proof (fe_inner j 2 Hj ltac:(lia)) as I2.
    rewrite Nat.add_0_r in I0. cbn [Nat.add] in I1, I2.
    fold m0 in A01, A02, I1, I2. fold m1 in A12, A10, I0, I2. fold m2 in A20, A21, I0, I1.
    assert (mV w <= m0 /\ mV w <= m1 /\ mV w <= m2 /\ m0 <> m1 /\ m1 <> m2 /\ m2 <> m0)
      as (M0 & M1 & M2 & M3 & M4 & M5) by (unfold m0, m1, m2; lia).
    assert (HF : forall q k, q < 4 -> mt fine (4 * j + q) k = ft (4 * j + q) k) by reflexivity.
    pose proof (ft_sub j 0) as S0. pose proof (ft_sub j 1) as S1.
    pose proof (ft_sub j 2) as S2. pose proof (ft_sub j 3) as S3.
    rewrite Nat.add_0_r in S0.
    unfold corners. cbn [mt me mE fine].
    assert (HS : forall k, ft (4 * j) k = _) by (intros k; apply S0; lia). clear S0.
    assert (HS1 : forall k, ft (4 * j + 1) k = _) by (intros k; apply S1; lia). clear S1.
    assert (HS2 : forall k, ft (4 * j + 2) k = _) by (intros k; apply S2; lia). clear S2.
    assert (HS3 : forall k, ft (4 * j + 3) k = _) by (intros k; apply S3; lia). clear S3.
    cbv zeta in HS, HS1, HS2, HS3.
    rewrite ?C0, ?C1, ?C2 in *.
    repeat split; try lia.
    all: try (intros [|[|[|k]]] Hk; rewrite ?HS, ?HS1, ?HS2, ?HS3; lia).
    all: rewrite ?HS, ?HS1, ?HS2, ?HS3, ?Nat.add_0_r, ?I0, ?I1, ?I2.
    all: try assumption; try (apply joins_sym; assumption).
    all: try (left; reflexivity); try (right; reflexivity).
  Qed.
End Fine.
