(** * Triangular meshes in the plane: the refined mesh is consistent *)
From Coq Require Import Arith Lia List Bool Ring.
From Verif Require Import Fld Prog Arr HmSpec Tri2d Tri2dSpec Tri2dP.
Import ListNotations.

Lemma nsum_eq n (f g : nat -> nat) : (forall i, i < n -> f i = g i) -> nsum n f = nsum n g.
Proof. induction n as [|n IH]; intros H; cbn; [reflexivity|]. rewrite IH, H by auto. reflexivity. Qed.

Lemma nsum_4 n (f : nat -> nat) :
  nsum (4 * n) f = nsum n (fun j => f (4 * j) + f (4 * j + 1) + f (4 * j + 2) + f (4 * j + 3)).
Proof.
  induction n as [|n IH]; [reflexivity|].
  replace (4 * S n) with (S (S (S (S (4 * n))))) by lia.
  cbn [nsum]. rewrite IH.
  replace (4 * n + 1) with (S (4 * n)) by lia. replace (4 * n + 2) with (S (S (4 * n))) by lia.
  replace (4 * n + 3) with (S (S (S (4 * n)))) by lia. lia.
Qed.

Lemma nsum_delta n j0 c : j0 < n -> nsum n (fun j => if j =? j0 then c else 0) = c.
Proof.
  induction n as [|n IH]; intros H; [lia|]. cbn [nsum].
  destruct (Nat.eqb_spec n j0) as [->|N].
  - replace (nsum j0 _) with 0; [lia|].
    assert (G : forall m, m <= j0 -> nsum m (fun j => if j =? j0 then c else 0) = 0).
    { induction m as [|m IHm]; intros Hm; cbn; [reflexivity|]. rewrite IHm by lia.
      destruct (Nat.eqb_spec m j0); lia. }
    symmetry. apply G. lia.
  - rewrite IH by lia. lia.
Qed.

Section Adj.
  Context {K : fops} (w : mview K) (Hok : mesh_ok w).

  Lemma hf_count i a b i0 h : i < mE w -> joins (me w i) a b -> a <> b -> h < 2 ->
    (if hf w i a =? 2 * i0 + h then 1 else 0) + (if hf w i b =? 2 * i0 + h then 1 else 0) =
    (if i =? i0 then 1 else 0).
  Proof.
    intros Hi HJ N Hh. unfold hf. destruct HJ as [E|E]; rewrite E; cbn [fst].
    - rewrite Nat.eqb_refl. destruct (Nat.eqb_spec a b); [congruence|].
      repeat match goal with |- context [?x =? ?y] => destruct (Nat.eqb_spec x y) end; lia.
    - rewrite Nat.eqb_refl. destruct (Nat.eqb_spec b a); [congruence|].
      repeat match goal with |- context [?x =? ?y] => destruct (Nat.eqb_spec x y) end; lia.
  Qed.

  Definition entry (i x : nat) : nat := if x =? i then 1 else 0.

  Lemma entry_ne i x : x <> i -> entry i x = 0.
  Proof. intros H. unfold entry. destruct (Nat.eqb_spec x i); [congruence|reflexivity]. Qed.

  Lemma count3 w' j i : nsum 3 (fun k => if mt (K := K) w' j k =? i then 1 else 0) =
    entry i (mt w' j 0) + entry i (mt w' j 1) + entry i (mt w' j 2).
  Proof. reflexivity. Qed.

  Lemma fine_row j v0 v1 v2 i : corners w j v0 v1 v2 ->
    let te := 2 * mE w + 3 * j in
    let c q := nsum 3 (fun k => if mt (fine w) (4 * j + q) k =? i then 1 else 0) in
    c 0 + c 1 + c 2 + c 3 =
    2 * (entry i te + entry i (te + 1) + entry i (te + 2)) +
    (entry i (hf w (mt w j 0) v1) + entry i (hf w (mt w j 0) v2)) +
    (entry i (hf w (mt w j 1) v2) + entry i (hf w (mt w j 1) v0)) +
    (entry i (hf w (mt w j 2) v0) + entry i (hf w (mt w j 2) v1)).
  Proof.
    intros HC te c. unfold c. rewrite !count3. cbn [mt fine].
    destruct (corners_cv _ _ _ _ _ HC) as (C0 & C1 & C2).
    rewrite !(ft_sub w j 0), !(ft_sub w j 1), !(ft_sub w j 2), !(ft_sub w j 3) by lia.
    cbv zeta. rewrite !C0, !C1, !C2. fold te. rewrite Nat.add_0_r. lia.
  Qed.

  Lemma adjacent_half i h : i < mE w -> h < 2 -> adjacent (fine w) (2 * i + h) = adjacent w i.
  Proof.
    intros Hi Hh. unfold adjacent. change (mT (fine w)) with (4 * mT w). rewrite nsum_4.
    apply nsum_eq. intros j Hj. cbv beta. rewrite (count3 w).
    destruct Hok as (_ & HT & _). destruct (HT j Hj) as (v0 & v1 & v2 & HC).
    pose proof (fine_row j v0 v1 v2 (2 * i + h) HC) as R. cbv beta zeta in R.
    rewrite Nat.add_0_r in R. rewrite R. clear R.
    pose proof HC as (N1 & N2 & N3 & HE & J0 & J1 & J2).
    pose proof (hf_count (mt w j 0) v1 v2 i h (HE 0 ltac:(lia)) J0 ltac:(congruence) Hh) as A0.
    pose proof (hf_count (mt w j 1) v2 v0 i h (HE 1 ltac:(lia)) J1 ltac:(congruence) Hh) as A1.
    pose proof (hf_count (mt w j 2) v0 v1 i h (HE 2 ltac:(lia)) J2 ltac:(congruence) Hh) as A2.
    rewrite !(entry_ne (2 * i + h) (2 * mE w + 3 * j)), !(entry_ne (2 * i + h) (2 * mE w + 3 * j + 1)),
      !(entry_ne (2 * i + h) (2 * mE w + 3 * j + 2)) by lia.
    unfold entry. lia.
  Qed.

  Lemma adjacent_inner j0 k0 : j0 < mT w -> k0 < 3 -> adjacent (fine w) (2 * mE w + 3 * j0 + k0) = 2.
  Proof.
    intros Hj0 Hk0. unfold adjacent. change (mT (fine w)) with (4 * mT w). rewrite nsum_4.
    rewrite <- (nsum_delta (mT w) j0 2 Hj0) at 1.
    apply nsum_eq. intros j Hj. cbv beta.
    destruct Hok as (_ & HT & _). destruct (HT j Hj) as (v0 & v1 & v2 & HC).
    pose proof (fine_row j v0 v1 v2 (2 * mE w + 3 * j0 + k0) HC) as R. cbv beta zeta in R.
    rewrite Nat.add_0_r in R. rewrite R. clear R.
    pose proof HC as (N1 & N2 & N3 & HE & J0 & J1 & J2).
    assert (G : forall k v, k < 3 -> entry (2 * mE w + 3 * j0 + k0) (hf w (mt w j k) v) = 0).
    { intros k v Hk. apply entry_ne. pose proof (HE k Hk). unfold hf.
      destruct (fst _ =? v); lia. }
    rewrite !G by lia. unfold entry.
    destruct (Nat.eqb_spec j j0) as [->|N].
    - destruct k0 as [|[|[|k0]]]; [| | |lia];
      repeat match goal with |- context [?x =? ?y] => destruct (Nat.eqb_spec x y) end; lia.
    - repeat match goal with |- context [?x =? ?y] => destruct (Nat.eqb_spec x y) end; lia.
  Qed.

  Lemma fine_edge_cases i : i < mE (fine w) ->
    (exists i0 h, i = 2 * i0 + h /\ i0 < mE w /\ h < 2) \/
    (exists j k, i = 2 * mE w + 3 * j + k /\ j < mT w /\ k < 3).
  Proof.
    cbn [mE fine]. intros Hi. destruct (Nat.lt_ge_cases i (2 * mE w)) as [H|H].
    - left. destruct (split_mul 2 (mE w) i ltac:(lia) H) as (j & k & E & Hk & Hj). exists j, k. lia.
    - right. destruct (split_mul 3 (mT w) (i - 2 * mE w) ltac:(lia) ltac:(lia)) as (j & k & E & Hk & Hj).
      exists j, k. lia.
  Qed.

  Lemma fxb_old i : i < mV w -> fxb w i = mxb w i.
  Proof. intros H. unfold fxb. destruct (Nat.ltb_spec i (mV w)); [reflexivity|lia]. Qed.
  Lemma fxb_new i : fxb w (mV w + i) = meb w i.
  Proof.
    unfold fxb. destruct (Nat.ltb_spec (mV w + i) (mV w)); [lia|].
    replace (mV w + i - mV w) with i by lia. reflexivity.
  Qed.
  Lemma fx_old i : i < mV w -> fx w i = mx w i.
  Proof. intros H. unfold fx. destruct (Nat.ltb_spec i (mV w)); [reflexivity|lia]. Qed.
  Lemma fx_new i : fx w (mV w + i) = mid (mx w (fst (me w i))) (mx w (snd (me w i))).
  Proof.
    unfold fx. destruct (Nat.ltb_spec (mV w + i) (mV w)); [lia|].
    replace (mV w + i - mV w) with i by lia. reflexivity.
  Qed.

  Lemma fine_ok : mesh_ok (fine w).
  Proof.
    pose proof Hok as (He & HT & H0 & H1 & Hb).
    split; [|split; [|split; [|split]]].
    - intros i Hi. destruct (fine_edge_cases i Hi) as [(i0 & h & -> & Hi0 & Hh)|(j & k & -> & Hj & Hk)];
        cbn [me mV fine].
      + rewrite fe_half by assumption. destruct (He i0 Hi0) as (A & B & C).
        destruct h as [|h]; cbn; lia.
      + rewrite fe_inner by assumption.
        destruct (HT j Hj) as (v0 & v1 & v2 & HC).
        destruct (corners_diff _ _ _ _ _ HC) as (D0 & D1 & D2).
        destruct HC as (_ & _ & _ & HE & _).
        pose proof (HE 0 ltac:(lia)). pose proof (HE 1 ltac:(lia)). pose proof (HE 2 ltac:(lia)).
        destruct k as [|[|k]]; cbn; lia.
    - intros i Hi. cbn [mT fine] in Hi.
      destruct (split_mul 4 (mT w) i ltac:(lia) Hi) as (j & q & -> & Hq & Hj).
      destruct (HT j Hj) as (v0 & v1 & v2 & HC).
      destruct (fine_corners w Hok j v0 v1 v2 Hj HC) as (A & B & C & D).
      destruct q as [|[|[|[|q]]]]; [rewrite Nat.add_0_r|..|lia]; eauto.
    - intros i Hi Hz. destruct (fine_edge_cases i Hi) as [(i0 & h & -> & Hi0 & Hh)|(j & k & -> & Hj & Hk)].
      + rewrite adjacent_half by assumption. cbn [meb fine] in Hz. rewrite feb_half in Hz by assumption. auto.
      + apply adjacent_inner; assumption.
    - intros i Hi Hz. destruct (fine_edge_cases i Hi) as [(i0 & h & -> & Hi0 & Hh)|(j & k & -> & Hj & Hk)];
        cbn [meb fine] in Hz.
      + rewrite adjacent_half by assumption. rewrite feb_half in Hz by assumption. auto.
      + rewrite feb_inner in Hz. discriminate.
    - intros i Hi Hz. destruct (fine_edge_cases i Hi) as [(i0 & h & -> & Hi0 & Hh)|(j & k & -> & Hj & Hk)];
        cbn [meb mxb me fine] in *.
      + rewrite feb_half in Hz by assumption. rewrite fe_half by assumption.
        destruct (Hb i0 Hi0 Hz) as [X Y]. destruct (He i0 Hi0) as (A & B & C).
        destruct h as [|h]; cbn [fst snd]; rewrite fxb_new, fxb_old by assumption; rewrite Hz; auto.
      + rewrite feb_inner in Hz. discriminate.
  Qed.
End Adj.

Section Mid.
  Context {K : fops} (L : field_laws K) (H2 : (1 + 1)%F <> @f0 K).
  Add Ring tri2d_ring : (rl_ring K (fl_ring K L)).

  Lemma half_two : (half K + half K)%F = @f1 K.
  Proof.
    unfold half, fdiv. transitivity (@finv K (1 + 1) * (1 + 1))%F; [ring|]. apply (fl_inv K L). exact H2.
  Qed.

  Lemma half_double (x : K) : (half K * x + half K * x)%F = x.
  Proof. transitivity ((half K + half K) * x)%F; [ring|]. rewrite half_two. ring. Qed.

  Lemma mid_midpoint (p q : K * K) : midpoint p q (mid p q).
  Proof. split; cbn; apply half_double. Qed.

  Lemma fine_refined (w : mview K) : mesh_ok w -> refined w (fine w).
  Proof.
    intros Hok. unfold refined. split; [reflexivity|]. split; [reflexivity|]. split; [reflexivity|].
    split; [intros i Hi; split; [apply fx_old; exact Hi|apply fxb_old; exact Hi]|].
    split; [intros i Hi; split; [cbn [mx fine]; rewrite fx_new; apply mid_midpoint|apply fxb_new]|].
    split; [|split; [intros j k _ _; apply feb_inner|]].
    - intros i Hi. cbn [me meb fine].
      pose proof (fe_half w i 0 Hi ltac:(lia)) as E0. pose proof (feb_half w i 0 Hi ltac:(lia)) as E1.
      rewrite Nat.add_0_r in E0, E1.
      split; [exact E0|]. split; [exact E1|].
      split; [apply (fe_half w i 1); [exact Hi|lia]|apply (feb_half w i 1); [exact Hi|lia]].
    - intros j v0 v1 v2 Hj HC. apply fine_corners; assumption.
  Qed.

  (** Areas *)
  Lemma half_cancel (x y : K) : (x + x)%F = (y + y)%F -> x = y.
  Proof.
    intros E. rewrite <- (half_double x), <- (half_double y).
    transitivity (half K * (x + x))%F; [ring|]. rewrite E. ring.
  Qed.
  Lemma midpoint_fun (p q r r' : K * K) : midpoint p q r -> midpoint p q r' -> r = r'.
  Proof.
    intros [A B] [C D]. destruct r as [r1 r2], r' as [s1 s2]; cbn in *. f_equal; apply half_cancel; congruence.
  Qed.
  Definition four (x : K) : K := (x + x + (x + x))%F.
  Lemma four_mid a b c :
    det a b c = four (det a (mid a b) (mid c a)) /\
    det a b c = four (det (mid a b) b (mid b c)) /\
    det a b c = four (det (mid c a) (mid b c) c) /\
    det a b c = four (det (mid b c) (mid c a) (mid a b)).
  Proof.
    assert (Q : four (half K * half K)%F = 1%F).
    { unfold four. transitivity ((half K + half K) * (half K + half K))%F; [ring|].
      rewrite half_two. ring. }
    assert (A1 : forall x y : K, (half K * (x + y) - x)%F = (half K * (y - x))%F).
    { intros x y. transitivity (half K * (x + y) - (half K + half K) * x)%F; [rewrite half_two; ring|ring]. }
    assert (A2 : forall x y : K, (half K * (x + y) - y)%F = (half K * (x - y))%F).
    { intros x y. transitivity (half K * (x + y) - (half K + half K) * y)%F; [rewrite half_two; ring|ring]. }
    assert (A3 : forall x y : K, (y - half K * (x + y))%F = (half K * (y - x))%F).
    { intros x y. transitivity ((half K + half K) * y - half K * (x + y))%F; [rewrite half_two; ring|ring]. }
    assert (A4 : forall x y : K, (x - half K * (x + y))%F = (half K * (x - y))%F).
    { intros x y. transitivity ((half K + half K) * x - half K * (x + y))%F; [rewrite half_two; ring|ring]. }
    assert (A5 : forall x y z : K, (half K * (x + y) - half K * (x + z))%F = (half K * (y - z))%F) by (intros; ring).
    assert (A6 : forall x y z : K, (half K * (y + x) - half K * (x + z))%F = (half K * (y - z))%F) by (intros; ring).
    assert (A7 : forall x y z : K, (half K * (x + y) - half K * (z + x))%F = (half K * (y - z))%F) by (intros; ring).
    assert (A8 : forall x y z : K, (half K * (y + x) - half K * (z + x))%F = (half K * (y - z))%F) by (intros; ring).
    assert (F : forall p q r s d : K, (p * q - r * s)%F = d ->
      d = four (half K * p * (half K * q) - half K * r * (half K * s))%F).
    { intros p q r s d <-. transitivity (four (half K * half K) * (p * q - r * s))%F.
      - rewrite Q. ring.
      - unfold four. ring. }
    destruct a as [a1 a2], b as [b1 b2], c as [c1 c2]. unfold det, mid; cbn [fst snd].
    repeat split; rewrite ?A1, ?A2, ?A3, ?A4, ?A5, ?A6, ?A7, ?A8; apply F; ring.
  Qed.
End Mid.
