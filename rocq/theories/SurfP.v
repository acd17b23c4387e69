(** * Surface meshes: checks, normal vectors, translation *)
From Coq Require Import Arith ZArith Lia List Bool.
From Verif Require Import Fld Prog Arr HmSpec Tri2d Tri2dP Tri2dP2 Surf SurfSpec.
Import ListNotations.
Local Open Scope nat_scope.

Lemma tget {A} (a : arr A) c n f i j : table a c n f -> i < n -> j < c -> aget a (c * i + j) = Ok (f i j).
Proof.
  intros H Hi Hj. rewrite (aval_get _ _ _ (c * i + j) H) by nia.
  destruct (divmod c i j Hj) as [-> ->]. reflexivity.
Qed.
Lemma table_ext {A} (a : arr A) c n f g : 0 < c -> table a c n f ->
  (forall i j, i < n -> j < c -> f i j = g i j) -> table a c n g.
Proof.
  intros Hc H E. eapply aval_ext; [exact H|]. intros p Hp. cbv beta. apply E.
  - apply Nat.div_lt_upper_bound; lia.
  - apply Nat.mod_upper_bound; lia.
Qed.

Lemma nx_1 j : j < 3 -> (j + 1) mod 3 = nx j.
Proof. intros H. destruct j as [|[|[|j]]]; try lia; reflexivity. Qed.
Lemma nx_2 j : j < 3 -> (j + 2) mod 3 = nx (nx j).
Proof. intros H. destruct j as [|[|[|j]]]; try lia; reflexivity. Qed.
Lemma nx_lt j : nx j < 3.
Proof. destruct j as [|[|j]]; cbn; lia. Qed.

(** ** Counting problems *)
Lemma rfor_zero lo n (body : nat -> nat -> res nat) (P : nat -> Prop) :
  (forall i p, lo <= i < lo + n -> exists q, body i p = Ok q /\ (q = 0 <-> p = 0 /\ P i)) ->
  forall p, exists q, rfor lo n body p = Ok q /\ (q = 0 <-> p = 0 /\ forall i, lo <= i < lo + n -> P i).
Proof.
  revert lo. induction n as [|n IH]; intros lo H p; cbn [rfor].
  - exists p. split; [reflexivity|]. split; [intros ->; split; [reflexivity|intros; lia]|tauto].
  - destruct (H lo p ltac:(lia)) as (q & -> & Hq). cbn [rbind].
    destruct (IH (S lo) (fun i p Hi => H i p ltac:(lia)) q) as (r & -> & Hr).
    exists r. split; [reflexivity|]. rewrite Hr, Hq. split.
    + intros [[H1 H2] H3]. split; [exact H1|]. intros i Hi.
      destruct (Nat.eq_dec i lo) as [->|]; [exact H2|apply H3; lia].
    + intros [H1 H2]. split; [split; [exact H1|apply H2; lia]|]. intros i Hi. apply H2. lia.
Qed.

Lemma b2n_le p a b : p + b2n (a <=? b) = 0 <-> p = 0 /\ b < a.
Proof. destruct (Nat.leb_spec a b); cbn [b2n]; lia. Qed.

Section Check.
  Context {K : fops} (m : surface3d K) (w : sview K) (Hm : surf_is m w).

  Lemma run_check_side i j p : i < vT w -> j < 3 ->
    exists q, check_side m i j p = Ok q /\
      (q = 0 <-> p = 0 /\ (vt w i j < vV w /\ vs w i j < vE w /\
                           ends w (vs w i j) (vt w i (nx j)) (vt w i (nx (nx j))))).
  Proof.
    intros Hi Hj. destruct Hm as (EV & EE & ET & Tx & Te & Tt & Ts & _ & _).
    unfold check_side. rewrite (tget _ _ _ _ i j Tt) by assumption. cbn [rbind].
    rewrite (tget _ _ _ _ i j Ts) by assumption. cbn [rbind]. rewrite EV, EE.
    destruct (Nat.leb_spec (vE w) (vs w i j)) as [H|H].
    - eexists. split; [reflexivity|]. split; intros; lia.
    - rewrite (tget _ _ _ _ _ 0 Te), (tget _ _ _ _ _ 1 Te) by (assumption || lia). cbn [rbind].
      rewrite (nx_1 j Hj), (nx_2 j Hj).
      rewrite (tget _ _ _ _ i (nx j) Tt), (tget _ _ _ _ i (nx (nx j)) Tt) by (assumption || apply nx_lt).
      cbn [rbind]. unfold ends.
      destruct (Nat.eqb_spec (ve w (vs w i j) 0) (vt w i (nx j))) as [E0|E0].
      + eexists. split; [reflexivity|].
        destruct (Nat.leb_spec (vV w) (vt w i j)); cbn [b2n]; [split; intros; lia|].
        destruct (Nat.eqb_spec (ve w (vs w i j) 1) (vt w i (nx (nx j)))) as [E1|E1]; cbn [negb b2n].
        * split; [intros; repeat split; try lia; left; auto|lia].
        * split; [lia|]. intros (_ & _ & _ & [[_ A]|[A B]]); [contradiction|]. congruence.
      + eexists. split; [reflexivity|].
        destruct (Nat.leb_spec (vV w) (vt w i j)); cbn [b2n]; [split; intros; lia|].
        destruct (Nat.eqb_spec (ve w (vs w i j) 0) (vt w i (nx (nx j)))) as [E1|E1];
        destruct (Nat.eqb_spec (ve w (vs w i j) 1) (vt w i (nx j))) as [E2|E2]; cbn [negb orb b2n].
        1: split; [intros; repeat split; try lia; right; auto|lia].
        all: split; [lia|]; intros (_ & _ & _ & [[A _]|[A B]]); contradiction.
  Qed.

  Lemma run_check : exists q, check_surface3d m = Ok q /\ (q = 0 <-> surf_checked w).
  Proof.
    pose proof Hm as (EV & EE & ET & Tx & Te & Tt & Ts & _ & _).
    unfold check_surface3d. rewrite EE, ET, EV.
    edestruct (rfor_zero 0 (vE w)) as (q & -> & Hq).
    { intros i p Hi. apply (rfor_zero 0 2 _ (fun h => ve w i h < vV w)).
      intros h p' Hh. rewrite (tget _ _ _ _ i h Te) by lia. cbn [rbind].
      eexists. split; [reflexivity|]. apply b2n_le. }
    cbn [rbind].
    edestruct (rfor_zero 0 (vT w)) as (r & -> & Hr).
    { intros i p Hi. apply (rfor_zero 0 3). intros j p' Hj. apply run_check_side; lia. }
    exists r. split; [reflexivity|]. rewrite Hr, Hq. unfold surf_checked. split.
    - intros [[_ A] B]. repeat split; intros.
      + apply A; lia.
      + refine (proj1 (B i _ j _)); lia.
      + refine (proj1 (proj2 (B i _ j _))); lia.
      + refine (proj2 (proj2 (B i _ j _))); lia.
    - intros (A & B & C & D). split; [split; [reflexivity|]|].
      + intros i Hi h Hh. apply A; lia.
      + intros i Hi j Hj. split; [apply B; lia|]. split; [apply C; lia|apply D; lia].
  Qed.
End Check.

(** ** Counting the uses of edges *)
Lemma rok_ainc (a : arr nat) n f i (Q : arr nat -> Prop) : aval a n f -> i < n ->
  (forall a', aval a' n (fun k => f k + (if i =? k then 1 else 0)) -> Q a') -> rok (ainc a i) Q.
Proof.
  intros Ha Hi HQ. unfold ainc. rewrite (aval_get _ _ _ _ Ha Hi). cbn [rbind].
  eapply rok_aset; [exact Ha|exact Hi|]. intros a' Ha'. apply HQ. eapply aval_ext; [exact Ha'|].
  intros k _. unfold afupd. rewrite (Nat.eqb_sym i k). destruct (Nat.eqb_spec k i); [subst; lia|lia].
Qed.

Lemma run_fill {A} n (z : A) : rok (rfor 0 n (fun i a => aset a i z) (anew n)) (fun a => aval a n (fun _ => z)).
Proof.
  apply (rok_for (fun i a => aprt a n (fun k => k < i) (fun _ => z))).
  - apply anew_prt. intros; lia.
  - intros i a Hi Ha. eapply rok_aset_next; [exact Ha|lia|reflexivity|auto].
  - intros a Ha. eapply aprt_aval; [|exact Ha]. auto.
Qed.


Lemma run_problems n (body : nat -> nat -> res nat) (b : nat -> bool) :
  (forall i p, i < n -> body i p = Ok (if b i then p + 1 else p)) ->
  exists q, rfor 0 n body 0 = Ok q /\ ((q =? 0) = true <-> forall i, i < n -> b i = false).
Proof.
  intros H. destruct (rfor_zero 0 n body (fun i => b i = false)) with (p := 0) as (q & -> & Hq).
  - intros i p Hi. rewrite H by lia. eexists. split; [reflexivity|]. destruct (b i); [|tauto].
    split; [lia|]. intros [_ E]. discriminate E.
  - exists q. split; [reflexivity|]. rewrite Nat.eqb_eq, Hq. split.
    + intros [_ A] i Hi. apply A. lia.
    + intros A. split; [reflexivity|]. intros i Hi. apply A. lia.
Qed.

Section Count.
  Context {K : fops} (m : surface3d K) (w : sview K) (Hm : surf_is m w).
  Hypothesis HS : forall i j, i < vT w -> j < 3 -> vs w i j < vE w.

  Lemma run_isclosed : exists b, isclosed_surface3d m = Ok b /\ (b = true <-> closed w).
  Proof.
    pose proof Hm as (EV & EE & ET & Tx & Te & Tt & Ts & _ & _).
    apply rok_inv. unfold isclosed_surface3d. rewrite EE, ET.
    apply rok_bind. eapply rok_conseq; [apply run_fill|]. intros v0 Hv0.
    apply rok_bind.
    apply (rok_for (fun i v => aval v (vE w)
      (fun k => nsum i (fun i => nsum 3 (fun j => if vs w i j =? k then 1 else 0))))).
    - exact Hv0.
    - intros i v Hi Hv.
      apply (rok_for (fun j v => aval v (vE w)
        (fun k => nsum i (fun i => nsum 3 (fun j => if vs w i j =? k then 1 else 0))
                  + nsum j (fun j => if vs w i j =? k then 1 else 0)))).
      + eapply aval_ext; [exact Hv|]. intros k _. cbn [nsum]. lia.
      + intros j v' Hj Hv'. rewrite (tget _ _ _ _ i j Ts) by lia. cbn [rbind].
        eapply rok_ainc; [exact Hv'|apply HS; lia|]. intros v2 Hv2. eapply aval_ext; [exact Hv2|].
        intros k _. cbn [nsum]. lia.
      + intros v' Hv'. eapply aval_ext; [exact Hv'|]. intros k _. reflexivity.
    - intros v Hv. change (0 + vT w) with (vT w) in Hv.
      destruct (run_problems (vE w) (fun i problems => let* c := aget v i in
         Ok (if negb (c =? 2) then problems + 1 else problems)) (fun k => negb (uses w k =? 2))) as (q & E & Hq).
      { intros i p Hi. rewrite (aval_get _ _ _ _ Hv Hi). reflexivity. }
      apply rok_bind. unfold rbind in *. rewrite E. cbn. rewrite Hq. unfold closed. split; intros H k Hk; specialize (H k Hk).
      + apply negb_false_iff, Nat.eqb_eq in H. exact H.
      + rewrite H. reflexivity.
  Qed.
End Count.

Section Orient.
  Context {K : fops} (m : surface3d K) (w : sview K) (Hm : surf_is m w) (Hw : surf_ok w).

  Definition pterm (k a b i j : nat) : nat :=
    if (vs w i j =? k) && (vt w i (nx j) =? a) && (vt w i (nx (nx j)) =? b) then 1 else 0.
  Definition fterm k := pterm k (ve w k 0) (ve w k 1).
  Definition bterm k := pterm k (ve w k 1) (ve w k 0).

  Lemma corners_ne i j : i < vT w -> j < 3 -> vt w i (nx j) <> vt w i (nx (nx j)).
  Proof.
    intros Hi Hj. destruct Hw as [_ H]. destruct (H i Hi) as (A & B & C).
    destruct j as [|[|[|j]]]; cbn [nx]; try lia; auto.
  Qed.

  (** The side [j] of the triangle [i] is traversed forward or backward. *)
  Lemma side_dir i j : i < vT w -> j < 3 ->
    (ve w (vs w i j) 0 = vt w i (nx j) /\ ve w (vs w i j) 1 = vt w i (nx (nx j)) /\
     (forall k, fterm k i j = if vs w i j =? k then 1 else 0) /\ (forall k, bterm k i j = 0)) \/
    (ve w (vs w i j) 0 <> vt w i (nx j) /\
     ve w (vs w i j) 0 = vt w i (nx (nx j)) /\ ve w (vs w i j) 1 = vt w i (nx j) /\
     (forall k, bterm k i j = if vs w i j =? k then 1 else 0) /\ (forall k, fterm k i j = 0)).
  Proof.
    intros Hi Hj. pose proof (corners_ne i j Hi Hj) as N.
    destruct Hw as [(_ & _ & _ & D) _]. unfold fterm, bterm, pterm.
    destruct (D i j Hi Hj) as [[A B]|[A B]]; [left|right; split; [congruence|]]; (split; [exact A|]; split; [exact B|]).
    - split; intros k; destruct (Nat.eqb_spec (vs w i j) k) as [<-|]; cbn [andb]; auto.
      + rewrite A, B, !Nat.eqb_refl. reflexivity.
      + rewrite A, B. destruct (Nat.eqb_spec (vt w i (nx j)) (vt w i (nx (nx j)))); [contradiction|reflexivity].
    - split; intros k; destruct (Nat.eqb_spec (vs w i j) k) as [<-|]; cbn [andb]; auto.
      + rewrite A, B, !Nat.eqb_refl. reflexivity.
      + rewrite A, B. destruct (Nat.eqb_spec (vt w i (nx j)) (vt w i (nx (nx j)))); [contradiction|reflexivity].
  Qed.

  Lemma uses_passes k : uses w k = passes w k (ve w k 0) (ve w k 1) + passes w k (ve w k 1) (ve w k 0).
  Proof.
    unfold uses, passes.
    enough (G : forall n, n <= vT w -> nsum n (fun i => nsum 3 (fun j => if vs w i j =? k then 1 else 0)) =
      nsum n (fun i => nsum 3 (fterm k i)) + nsum n (fun i => nsum 3 (bterm k i))) by (apply G; lia).
    induction n as [|n IH]; intros Hn; [reflexivity|]. cbn [nsum] in *. rewrite IH by lia.
    destruct (side_dir n 0 ltac:(lia) ltac:(lia)) as [(_ & _ & A & A')|(_ & _ & _ & A & A')];
    destruct (side_dir n 1 ltac:(lia) ltac:(lia)) as [(_ & _ & B & B')|(_ & _ & _ & B & B')];
    destruct (side_dir n 2 ltac:(lia) ltac:(lia)) as [(_ & _ & C & C')|(_ & _ & _ & C & C')];
    rewrite A, A', B, B', C, C'; lia.
  Qed.

  Definition osum (f : nat -> nat -> nat -> nat) (i j k : nat) : nat :=
    nsum i (fun i => nsum 3 (f k i)) + nsum j (f k i).
  Definition oinv (i j : nat) (s : arr nat * arr Z) : Prop :=
    aval (fst s) (vE w) (osum (fun k i j => if vs w i j =? k then 1 else 0) i j) /\
    aval (snd s) (vE w) (fun k => Z.of_nat (osum fterm i j k) - Z.of_nat (osum bterm i j k))%Z.

  Lemma run_orient_side i j s : i < vT w -> j < 3 -> oinv i j s -> rok (orient_side m i j s) (oinv i (S j)).
  Proof.
    destruct s as [v z]. intros Hi Hj [Hv Hz]; cbn [fst snd] in *.
    pose proof Hm as (EV & EE & ET & Tx & Te & Tt & Ts & _ & _). pose proof Hw as [(_ & _ & HS & _) _].
    specialize (HS i j Hi Hj).
    unfold orient_side. rewrite (tget _ _ _ _ i j Ts) by assumption. cbn [rbind].
    apply rok_bind. eapply rok_ainc; [exact Hv|exact HS|]. intros v' Hv'.
    rewrite (tget _ _ _ _ _ 0 Te), (tget _ _ _ _ _ 1 Te) by (assumption || lia). cbn [rbind].
    rewrite (nx_1 j Hj), (nx_2 j Hj).
    rewrite (tget _ _ _ _ i (nx j) Tt), (tget _ _ _ _ i (nx (nx j)) Tt) by (assumption || apply nx_lt).
    cbn [rbind]. rewrite (aval_get _ _ _ _ Hz HS). cbn [rbind].
    destruct (side_dir i j Hi Hj) as [(A & B & F1 & F2)|(N & A & B & F1 & F2)].
    - rewrite A, B, !Nat.eqb_refl. apply rok_bind. apply rok_assert; [reflexivity|].
      apply rok_bind. eapply rok_aset; [exact Hz|exact HS|]. intros z' Hz'. cbn. split; cbn [fst snd].
      + eapply aval_ext; [exact Hv'|]. intros k _. unfold osum. cbn [nsum]. lia.
      + eapply aval_ext; [exact Hz'|]. intros k _. cbv beta. unfold afupd, osum. cbn [nsum].
        rewrite (F1 k), (F2 k). destruct (Nat.eqb_spec k (vs w i j)) as [->|Nk].
        * rewrite Nat.eqb_refl. lia.
        * destruct (Nat.eqb_spec (vs w i j) k); [congruence|]. lia.
    - destruct (Nat.eqb_spec (ve w (vs w i j) 0) (vt w i (nx j))); [contradiction|].
      apply rok_bind. apply rok_assert; [apply Nat.eqb_eq; exact A|].
      apply rok_bind. apply rok_assert; [apply Nat.eqb_eq; exact B|].
      apply rok_bind. eapply rok_aset; [exact Hz|exact HS|]. intros z' Hz'. cbn. split; cbn [fst snd].
      + eapply aval_ext; [exact Hv'|]. intros k _. unfold osum. cbn [nsum]. lia.
      + eapply aval_ext; [exact Hz'|]. intros k _. cbv beta. unfold afupd, osum. cbn [nsum].
        rewrite (F1 k), (F2 k). destruct (Nat.eqb_spec k (vs w i j)) as [->|Nk].
        * rewrite Nat.eqb_refl. lia.
        * destruct (Nat.eqb_spec (vs w i j) k); [congruence|]. lia.
  Qed.

  Lemma run_isoriented : exists b, isoriented_surface3d m = Ok b /\ (b = true <-> oriented w).
  Proof.
    pose proof Hm as (EV & EE & ET & _).
    apply rok_inv. unfold isoriented_surface3d. rewrite EE, ET.
    apply rok_bind.
    apply (rok_for (fun i s => aprt (fst s) (vE w) (fun k => k < i) (fun _ => 0) /\
                               aprt (snd s) (vE w) (fun k => k < i) (fun _ => 0%Z))).
    { split; apply anew_prt; intros; lia. }
    { intros i [v z] Hi [Hv Hz]; cbn [fst snd] in *.
      apply rok_bind. eapply rok_aset_next; [exact Hz|lia|reflexivity|]. intros z' Hz'.
      apply rok_bind. eapply rok_aset_next; [exact Hv|lia|reflexivity|]. intros v' Hv'.
      cbn. auto. }
    intros [v z] [Hv Hz]; cbn [fst snd] in *.
    apply rok_bind. apply (rok_for (fun i s => oinv i 0 s)).
    { split; cbn [fst snd].
      - eapply aval_ext; [eapply aprt_aval; [|exact Hv]; auto|]. intros k _. reflexivity.
      - eapply aval_ext; [eapply aprt_aval; [|exact Hz]; auto|]. intros k _. reflexivity. }
    { intros i s Hi Hs. apply (rok_for (fun j s => oinv i j s)).
      - exact Hs.
      - intros j s' Hj Hs'. apply run_orient_side; [lia|lia|exact Hs'].
      - intros s' [A B]. change (0 + 3) with 3 in *. cbv beta in *. split; (eapply aval_ext; [eassumption|]); intros k _; unfold osum; cbn [nsum]; lia. }
    intros [v1 z1] [Hv1 Hz1]; cbn [fst snd] in *. change (0 + vT w) with (vT w) in *.
    destruct (run_problems (vE w) (fun i problems => let* c := aget v1 i in let* d := aget z1 i in
       Ok (if (1 <? c) && ((d <? -1)%Z || (1 <? d)%Z) then problems + 1 else problems))
       (fun k => let d := (Z.of_nat (passes w k (ve w k 0) (ve w k 1)) - Z.of_nat (passes w k (ve w k 1) (ve w k 0)))%Z in
          (1 <? uses w k) && ((d <? -1)%Z || (1 <? d)%Z))) as (q & E & Hq).
    { intros i p Hi. rewrite (aval_get _ _ _ _ Hv1 Hi), (aval_get _ _ _ _ Hz1 Hi). cbn [rbind].
      unfold osum. cbn [nsum]. rewrite !Nat.add_0_r. reflexivity. }
    apply rok_bind. unfold rbind in *. rewrite E. cbn. rewrite Hq. unfold oriented. split; intros H k Hk.
    - intros Hu. specialize (H k Hk). cbv zeta in H. apply Nat.ltb_lt in Hu. rewrite Hu in H. cbn [andb] in H.
      apply orb_false_iff in H as [H1 H2]. apply Z.ltb_ge in H1. apply Z.ltb_ge in H2. lia.
    - cbv zeta. destruct (Nat.ltb_spec 1 (uses w k)) as [Hu|Hu]; [|reflexivity]. cbn [andb].
      destruct (H k Hk Hu) as [A B]. apply orb_false_iff. split; apply Z.ltb_ge; lia.
  Qed.
End Orient.
