(** * Proof rules for the loops of the dense kernels

    Every kernel stores, for each index of a range, one new value into its
    target.  The rules below capture this pattern; the invariant is "cells
    already visited hold the new value, the others the old one". *)
From Coq Require Import Arith Lia List Bool.
From Verif Require Import Fld Prog View.
Import ListNotations.

(** Split a boolean comparison by its specification. *)
Ltac bdestr b :=
  match b with
  | andb ?x _ => bdestr x
  | orb ?x _ => bdestr x
  | negb ?x => bdestr x
  | (?x <? ?y)%nat => destruct (Nat.ltb_spec x y)
  | (?x <=? ?y)%nat => destruct (Nat.leb_spec x y)
  | (?x =? ?y)%nat => destruct (Nat.eqb_spec x y)
  end.
Ltac bsplit :=
  repeat (match goal with
          | |- context [if ?b then _ else _] => bdestr b
          | H : context [if ?b then _ else _] |- _ => bdestr b
          end; cbn [andb orb negb]; try lia).

Section Loops.
Context {K : Type}.
Implicit Types (m : mem K) (R W : addr -> Prop).

(** Exactly the cell [a] was changed, to [v]. *)
Definition wrote m (a : addr) (v : K) m' : Prop :=
  next m <= next m' /\ get m' a = Val v /\ forall b, b <> a -> get m' b = get m b.

Lemma wrote_upd m a v v' : get m a <> Free -> v = v' -> wrote m a v (upd m a v').
Proof.
  intros Ha ->. split; [cbn; lia|]. split.
  - rewrite get_upd by exact Ha. destruct (addr_eqb_spec a a); congruence.
  - intros b Hb. apply get_upd_other. exact Hb.
Qed.

Lemma wrote_keeps (W : addr -> Prop) m m1 a v m2 :
  keeps W m m1 -> wrote m1 a v m2 -> W a -> keeps W m m2.
Proof.
  intros [H1 H2] [H3 [H4 H5]] Ha. split; [lia|]. intros b Hb.
  rewrite H5 by (intros ->; auto). auto.
Qed.

Lemma wrote_nfree m a v m' b : wrote m a v m' -> get m b <> Free -> get m' b <> Free.
Proof.
  intros [H3 [H4 H5]] Hb. destruct (addr_eqb_spec b a) as [->|E].
  - rewrite H4; discriminate.
  - rewrite H5; assumption.
Qed.

Lemma vval_fupd_step m m' y f i v (G : nat -> K) :
  vval m y f -> wrote m (va y i) v m' ->
  (forall k, k < vdim y -> G k = if k =? i then v else f k) ->
  vval m' y G.
Proof.
  intros H [_ [H1 H2]] HG k Hk. rewrite HG by exact Hk.
  destruct (Nat.eqb_spec k i) as [->|E]; [exact H1|].
  rewrite H2; [auto|]. intros E'. apply va_inj in E'. auto.
Qed.

Lemma mval_fupd_step m m' A f i j v (G : nat -> nat -> K) :
  mwf A -> mval m A f -> wrote m (ma A i j) v m' -> i < mrows A ->
  (forall k l, k < mrows A -> l < mcols A -> G k l = if (k =? i) && (l =? j) then v else f k l) ->
  mval m' A G.
Proof.
  intros Hw H [_ [H1 H2]] Hi HG k l Hk Hl. rewrite HG by assumption.
  destruct (Nat.eqb_spec k i), (Nat.eqb_spec l j); cbn [andb]; subst; try exact H1;
    rewrite H2; auto; intros E'; apply ma_inj in E'; auto; destruct E'; congruence.
Qed.

(** One loop over an initialised vector. *)
Lemma wp_vloop R W y n lo (f g : nat -> K) body m (Q : unit -> mem K -> Prop) :
  vval m y f -> lo + n <= vdim y ->
  (forall i m1, lo <= i < lo + n ->
     vval m1 y (fun k => if (lo <=? k) && (k <? i) then g k else f k) ->
     keeps (inv y) m m1 ->
     wp R W (body i) m1 (fun _ m2 => wrote m1 (va y i) (g i) m2)) ->
  (forall m', vval m' y (fun k => if (lo <=? k) && (k <? lo + n) then g k else f k) ->
     keeps (inv y) m m' -> Q tt m') ->
  wp R W (for_ lo n body) m Q.
Proof.
  intros H0 Hn Hb HQ.
  apply (wp_for (fun i m1 => vval m1 y (fun k => if (lo <=? k) && (k <? i) then g k else f k)
                              /\ keeps (inv y) m m1)).
  - split; [|apply keeps_refl]. eapply vval_ext; [exact H0|].
    intros k Hk; cbv beta. bsplit; reflexivity.
  - intros i m1 Hi [Hv Hk]. eapply wp_conseq; [apply Hb; assumption|].
    cbn. intros _ m2 Hwr. split.
    + eapply vval_fupd_step; [exact Hv|exact Hwr|]. intros k Hk'; cbv beta. bsplit; subst; reflexivity.
    + eapply wrote_keeps; [exact Hk|exact Hwr|]. apply inv_va. lia.
  - intros m1 [Hv Hk]. auto.
Qed.

(** One loop over a vector that need not be initialised. *)
Lemma wp_vfill R W y n (g : nat -> K) body m (Q : unit -> mem K -> Prop) :
  valloc m y -> n = vdim y ->
  (forall i m1, i < n -> valloc m1 y -> keeps (inv y) m m1 ->
     (forall k, i <= k -> get m1 (va y k) = get m (va y k)) ->
     wp R W (body i) m1 (fun _ m2 => wrote m1 (va y i) (g i) m2)) ->
  (forall m', vval m' y g -> keeps (inv y) m m' -> Q tt m') ->
  wp R W (for_ 0 n body) m Q.
Proof.
  intros H0 Hn Hb HQ.
  apply (wp_for (fun i m1 => (valloc m1 y /\ forall k, i <= k -> get m1 (va y k) = get m (va y k))
                   /\ (forall k, k < i -> get m1 (va y k) = Val (g k))
                              /\ keeps (inv y) m m1)).
  - split; [split; [exact H0|reflexivity]|]. split; [intros; lia|apply keeps_refl].
  - intros i m1 Hi [[Ha Hu] [Hv Hk]]. eapply wp_conseq; [apply Hb; try assumption; lia|].
    cbn. intros _ m2 Hwr. split; [split|split].
    + intros k Hk'. eapply wrote_nfree; eauto.
    + intros k Hk'. destruct Hwr as [_ [_ Hwr]]. rewrite Hwr; [apply Hu; lia|].
      intros E; apply va_inj in E; lia.
    + intros k Hk'. destruct Hwr as [_ [Hwr1 Hwr]].
      destruct (Nat.eq_dec k i) as [->|E]; [exact Hwr1|].
      rewrite Hwr; [apply Hv; lia|]. intros E'; apply va_inj in E'; lia.
    + eapply wrote_keeps; [exact Hk|exact Hwr|]. apply inv_va. lia.
  - intros m1 [[Ha Hu] [Hv Hk]]. apply HQ; [|exact Hk]. intros k Hk'. apply Hv. lia.
Qed.

(** Column-wise double loop: [for j < nc] [for lo j <= i < lo j + cnt j]. *)
Lemma wp_mloop R W A nc (lo cnt : nat -> nat) (f g : nat -> nat -> K) body m
  (Q : unit -> mem K -> Prop) :
  mwf A -> mval m A f -> nc <= mcols A ->
  (forall j, j < nc -> cnt j = 0 \/ lo j + cnt j <= mrows A) ->
  (forall i j m1, j < nc -> lo j <= i < lo j + cnt j -> i < mrows A ->
     mval m1 A (fun k l => if ((l <? j) || ((l =? j) && (k <? i)))
                              && (lo l <=? k) && (k <? lo l + cnt l) then g k l else f k l) ->
     keeps (inm A) m m1 ->
     wp R W (body i j) m1 (fun _ m2 => wrote m1 (ma A i j) (g i j) m2)) ->
  (forall m', mval m' A (fun k l => if (l <? nc) && (lo l <=? k) && (k <? lo l + cnt l)
                                   then g k l else f k l) ->
     keeps (inm A) m m' -> Q tt m') ->
  wp R W (for_ 0 nc (fun j => for_ (lo j) (cnt j) (fun i => body i j))) m Q.
Proof.
  intros Hw H0 Hnc Hr Hb HQ.
  apply (wp_for (fun j m1 => mval m1 A (fun k l => if (l <? j) && (lo l <=? k) && (k <? lo l + cnt l)
                                   then g k l else f k l) /\ keeps (inm A) m m1)).
  - split; [|apply keeps_refl]. eapply mval_ext; [exact H0|]. intros; cbv beta; bsplit; reflexivity.
  - intros j m1 Hj [Hv Hk].
    destruct (Hr j ltac:(lia)) as [Hz|Hle].
    { rewrite Hz. cbn. split; [|exact Hk]. eapply mval_ext; [exact Hv|]. intros k l _ _; cbv beta.
      destruct (Nat.eq_dec l j) as [->|]; [rewrite Hz|]; bsplit; try reflexivity. }
    apply (wp_for (fun i m2 => mval m2 A (fun k l => if ((l <? j) || ((l =? j) && (k <? i)))
                              && (lo l <=? k) && (k <? lo l + cnt l) then g k l else f k l)
              /\ keeps (inm A) m m2)).
    + split; [|exact Hk]. eapply mval_ext; [exact Hv|]. intros k l _ _; cbv beta.
      destruct (Nat.eq_dec l j) as [->|]; bsplit; reflexivity.
    + intros i m2 Hi [Hv2 Hk2]. eapply wp_conseq; [apply Hb; try assumption; lia|].
      cbn. intros _ m3 Hwr. split.
      * eapply mval_fupd_step; [exact Hw|exact Hv2|exact Hwr|lia|].
        intros k l Hk' Hl'; cbv beta.
        destruct (Nat.eq_dec l j) as [->|]; bsplit; subst; reflexivity.
      * eapply wrote_keeps; [exact Hk2|exact Hwr|]. apply inm_ma; lia.
    + intros m2 [Hv2 Hk2]. split; [|exact Hk2]. eapply mval_ext; [exact Hv2|].
      intros k l _ _; cbv beta. destruct (Nat.eq_dec l j) as [->|]; bsplit; reflexivity.
  - intros m1 [Hv Hk]. auto.
Qed.

(** Row-wise double loop over a leading rectangle. *)
Lemma wp_mloopr R W A nr nc (f g : nat -> nat -> K) body m
  (Q : unit -> mem K -> Prop) :
  mwf A -> mval m A f -> nc <= mcols A -> nr <= mrows A ->
  (forall i j m1, j < nc -> i < nr ->
     mval m1 A (fun k l => if ((k <? i) && (l <? nc) || ((k =? i) && (l <? j))) then g k l else f k l) ->
     keeps (inm A) m m1 ->
     wp R W (body i j) m1 (fun _ m2 => wrote m1 (ma A i j) (g i j) m2)) ->
  (forall m', mval m' A (fun k l => if (k <? nr) && (l <? nc) then g k l else f k l) ->
     keeps (inm A) m m' -> Q tt m') ->
  wp R W (for_ 0 nr (fun i => for_ 0 nc (fun j => body i j))) m Q.
Proof.
  intros Hw H0 Hnc Hr Hb HQ.
  apply (wp_for (fun i m1 => mval m1 A (fun k l => if (k <? i) && (l <? nc)
                                   then g k l else f k l) /\ keeps (inm A) m m1)).
  - split; [|apply keeps_refl]. eapply mval_ext; [exact H0|]. intros; cbv beta; bsplit; reflexivity.
  - intros i m1 Hi [Hv Hk].
    apply (wp_for (fun j m2 => mval m2 A (fun k l => if ((k <? i) && (l <? nc) || ((k =? i) && (l <? j)))
                              then g k l else f k l)
              /\ keeps (inm A) m m2)).
    + split; [|exact Hk]. eapply mval_ext; [exact Hv|]. intros k l _ _; cbv beta. bsplit; reflexivity.
    + intros j m2 Hj [Hv2 Hk2]. eapply wp_conseq; [apply Hb; try assumption; lia|].
      cbn. intros _ m3 Hwr. split.
      * eapply mval_fupd_step; [exact Hw|exact Hv2|exact Hwr|lia|].
        intros k l Hk' Hl'; cbv beta. bsplit; subst; reflexivity.
      * eapply wrote_keeps; [exact Hk2|exact Hwr|]. apply inm_ma; lia.
    + intros m2 [Hv2 Hk2]. split; [|exact Hk2]. eapply mval_ext; [exact Hv2|].
      intros k l _ _; cbv beta. bsplit; reflexivity.
  - intros m1 [Hv Hk]. auto.
Qed.

(** Column-wise double loop that overwrites the whole matrix. *)
Lemma wp_mfill R W A nr nc (g : nat -> nat -> K) body m
  (Q : unit -> mem K -> Prop) :
  mwf A -> malloc m A -> nc = mcols A -> nr = mrows A ->
  (forall i j m1, j < nc -> i < nr -> malloc m1 A ->
     keeps (inm A) m m1 ->
     wp R W (body i j) m1 (fun _ m2 => wrote m1 (ma A i j) (g i j) m2)) ->
  (forall m', mval m' A g -> keeps (inm A) m m' -> Q tt m') ->
  wp R W (for_ 0 nc (fun j => for_ 0 nr (fun i => body i j))) m Q.
Proof.
  intros Hw H0 Hnc Hr Hb HQ.
  apply (wp_for (fun j m1 => malloc m1 A /\ (forall k l, k < nr -> l < j -> get m1 (ma A k l) = Val (g k l))
        /\ keeps (inm A) m m1)).
  - split; [exact H0|]. split; [intros; lia|apply keeps_refl].
  - intros j m1 Hj [Ha [Hv Hk]].
    apply (wp_for (fun i m2 => malloc m2 A /\ (forall k l, k < nr -> l < j \/ (l = j /\ k < i) ->
              get m2 (ma A k l) = Val (g k l)) /\ keeps (inm A) m m2)).
    + split; [exact Ha|]. split; [|exact Hk]. intros k l Hk' [Hl|Hl]; [auto|lia].
    + intros i m2 Hi [Ha2 [Hv2 Hk2]]. eapply wp_conseq; [apply Hb; try assumption; lia|].
      cbn. intros _ m3 Hwr. split; [|split].
      * intros k l Hk' Hl'. eapply wrote_nfree; eauto.
      * intros k l Hk' Hl. destruct Hwr as [_ [Hwr1 Hwr]].
        destruct (addr_eqb_spec (ma A k l) (ma A i j)) as [E|E].
        -- apply ma_inj in E as [-> ->]; auto; lia.
        -- rewrite Hwr by exact E. apply Hv2; [exact Hk'|]. destruct Hl as [?|[-> ?]]; [auto|].
           right. split; [reflexivity|]. assert (k <> i) by (intros ->; auto). lia.
      * eapply wrote_keeps; [exact Hk2|exact Hwr|]. apply inm_ma; lia.
    + intros m2 [Ha2 [Hv2 Hk2]]. split; [exact Ha2|]. split; [|exact Hk2].
      intros k l Hk' Hl. apply Hv2; [exact Hk'|]. destruct (Nat.eq_dec l j); [right|left]; lia.
  - intros m1 [Ha [Hv Hk]]. apply HQ; [|exact Hk]. intros k l Hk' Hl. apply Hv; lia.
Qed.

(** The same with the loops in the other order. *)
Lemma wp_mfillr R W A nr nc (g : nat -> nat -> K) body m
  (Q : unit -> mem K -> Prop) :
  mwf A -> malloc m A -> nc = mcols A -> nr = mrows A ->
  (forall i j m1, j < nc -> i < nr -> malloc m1 A ->
     keeps (inm A) m m1 ->
     wp R W (body i j) m1 (fun _ m2 => wrote m1 (ma A i j) (g i j) m2)) ->
  (forall m', mval m' A g -> keeps (inm A) m m' -> Q tt m') ->
  wp R W (for_ 0 nr (fun i => for_ 0 nc (fun j => body i j))) m Q.
Proof.
  intros Hw H0 Hnc Hr Hb HQ.
  apply (wp_for (fun i m1 => malloc m1 A /\ (forall k l, k < i -> l < nc -> get m1 (ma A k l) = Val (g k l))
        /\ keeps (inm A) m m1)).
  - split; [exact H0|]. split; [intros; lia|apply keeps_refl].
  - intros i m1 Hi [Ha [Hv Hk]].
    apply (wp_for (fun j m2 => malloc m2 A /\ (forall k l, l < nc -> k < i \/ (k = i /\ l < j) ->
              get m2 (ma A k l) = Val (g k l)) /\ keeps (inm A) m m2)).
    + split; [exact Ha|]. split; [|exact Hk]. intros k l Hk' [Hl|Hl]; [auto|lia].
    + intros j m2 Hj [Ha2 [Hv2 Hk2]]. eapply wp_conseq; [apply Hb; try assumption; lia|].
      cbn. intros _ m3 Hwr. split; [|split].
      * intros k l Hk' Hl'. eapply wrote_nfree; eauto.
      * intros k l Hk' Hl. destruct Hwr as [_ [Hwr1 Hwr]].
        destruct (addr_eqb_spec (ma A k l) (ma A i j)) as [E|E].
        -- apply ma_inj in E as [-> ->]; auto; lia.
        -- rewrite Hwr by exact E. apply Hv2; [exact Hk'|]. destruct Hl as [?|[-> ?]]; [auto|].
           right. split; [reflexivity|]. assert (l <> j) by (intros ->; auto). lia.
      * eapply wrote_keeps; [exact Hk2|exact Hwr|]. apply inm_ma; lia.
    + intros m2 [Ha2 [Hv2 Hk2]]. split; [exact Ha2|]. split; [|exact Hk2].
      intros k l Hk' Hl. apply Hv2; [exact Hl|]. destruct (Nat.eq_dec k i); [right|left]; lia.
  - intros m1 [Ha [Hv Hk]]. apply HQ; [|exact Hk]. intros k l Hk' Hl. apply Hv; lia.
Qed.

(** One loop along a column. *)
Lemma wp_mcol R W A j lo n (f : nat -> nat -> K) (g : nat -> K) body m
  (Q : unit -> mem K -> Prop) :
  mwf A -> mval m A f -> j < mcols A -> n = 0 \/ lo + n <= mrows A ->
  (forall i m1, lo <= i < lo + n ->
     mval m1 A (fun k l => if (l =? j) && (lo <=? k) && (k <? i) then g k else f k l) ->
     keeps (inm A) m m1 ->
     wp R W (body i) m1 (fun _ m2 => wrote m1 (ma A i j) (g i) m2)) ->
  (forall m', mval m' A (fun k l => if (l =? j) && (lo <=? k) && (k <? lo + n) then g k else f k l) ->
     keeps (inm A) m m' -> Q tt m') ->
  wp R W (for_ lo n body) m Q.
Proof.
  intros Hw H0 Hj Hn Hb HQ.
  apply (wp_for (fun i m1 => mval m1 A (fun k l => if (l =? j) && (lo <=? k) && (k <? i)
                                   then g k else f k l) /\ keeps (inm A) m m1)).
  - split; [|apply keeps_refl]. eapply mval_ext; [exact H0|]. intros; cbv beta; bsplit; reflexivity.
  - intros i m1 Hi [Hv Hk]. eapply wp_conseq; [apply Hb; assumption|].
    cbn. intros _ m2 Hwr. split.
    + eapply mval_fupd_step; [exact Hw|exact Hv|exact Hwr|lia|].
      intros k l Hk' Hl; cbv beta. bsplit; subst; try reflexivity; lia.
    + eapply wrote_keeps; [exact Hk|exact Hwr|]. apply inm_ma; lia.
  - intros m1 [Hv Hk]. auto.
Qed.

(** One loop along a row. *)
Lemma wp_mrow R W A i lo n (f : nat -> nat -> K) (g : nat -> K) body m
  (Q : unit -> mem K -> Prop) :
  mwf A -> mval m A f -> i < mrows A -> n = 0 \/ lo + n <= mcols A ->
  (forall j m1, lo <= j < lo + n ->
     mval m1 A (fun k l => if (k =? i) && (lo <=? l) && (l <? j) then g l else f k l) ->
     keeps (inm A) m m1 ->
     wp R W (body j) m1 (fun _ m2 => wrote m1 (ma A i j) (g j) m2)) ->
  (forall m', mval m' A (fun k l => if (k =? i) && (lo <=? l) && (l <? lo + n) then g l else f k l) ->
     keeps (inm A) m m' -> Q tt m') ->
  wp R W (for_ lo n body) m Q.
Proof.
  intros Hw H0 Hj Hn Hb HQ.
  apply (wp_for (fun j m1 => mval m1 A (fun k l => if (k =? i) && (lo <=? l) && (l <? j)
                                   then g l else f k l) /\ keeps (inm A) m m1)).
  - split; [|apply keeps_refl]. eapply mval_ext; [exact H0|]. intros; cbv beta; bsplit; reflexivity.
  - intros j m1 Hi [Hv Hk]. eapply wp_conseq; [apply Hb; assumption|].
    cbn. intros _ m2 Hwr. split.
    + eapply mval_fupd_step; [exact Hw|exact Hv|exact Hwr|lia|].
      intros k l Hk' Hl; cbv beta. bsplit; subst; try reflexivity; lia.
    + eapply wrote_keeps; [exact Hk|exact Hwr|]. apply inm_ma; lia.
  - intros m1 [Hv Hk]. auto.
Qed.

(** Repeated updates of a single cell: [for k] [A(i,j) += ...]. *)
Lemma wp_cell R W a n (g : nat -> K) body m (Q : unit -> mem K -> Prop) :
  get m a = Val (g 0) ->
  (forall k m1, k < n -> wrote m a (g k) m1 ->
     wp R W (body k) m1 (fun _ m2 => wrote m1 a (g (S k)) m2)) ->
  (forall m', wrote m a (g n) m' -> Q tt m') ->
  wp R W (for_ 0 n body) m Q.
Proof.
  intros H0 Hb HQ.
  apply (wp_for (fun k m1 => wrote m a (g k) m1)).
  - split; [lia|]. auto.
  - intros k m1 Hk Hwr. eapply wp_conseq; [apply Hb; [lia|exact Hwr]|]. cbn.
    intros _ m2 [H3 [H4 H5]]. destruct Hwr as [H6 [H7 H8]]. split; [lia|]. split; [exact H4|].
    intros b Hne. rewrite H5, H8; auto.
  - intros m1 H1. apply HQ. exact H1.
Qed.

(** Loops that only compute a value and leave the memory alone. *)
Lemma wp_fold {S} R W lo n (g : nat -> S) (body : nat -> S -> prog K S) s m
  (Q : S -> mem K -> Prop) :
  s = g lo ->
  (forall i, lo <= i < lo + n -> wp R W (body i (g i)) m (fun s' m' => s' = g (Datatypes.S i) /\ m' = m)) ->
  Q (g (lo + n)) m ->
  wp R W (forS lo n body s) m Q.
Proof.
  intros -> Hb HQ.
  apply (wp_forS (fun i s m1 => s = g i /\ m1 = m)).
  - auto.
  - intros i s m1 Hi [-> ->]. apply Hb. exact Hi.
  - intros s m1 [-> ->]. exact HQ.
Qed.
End Loops.

(** ** Symbolic execution *)
Ltac wsolve := first [ eassumption | lia | solve [eauto with view] ].
Ltac wstep :=
  cbv beta;
  lazymatch goal with
  | |- wp _ _ (bind _ _) _ _ => apply wp_bind; wstep
  | |- wp _ _ (vload _ _) _ _ => eapply wp_vload; [wsolve|try lia|wsolve|]
  | |- wp _ _ (mload _ _ _) _ _ => eapply wp_mload; [wsolve|try lia|try lia|wsolve|]
  | |- wp _ _ (vstore _ _ _) _ _ => eapply wp_vstore; [wsolve|try lia|wsolve|]
  | |- wp _ _ (mstore _ _ _ _) _ _ => eapply wp_mstore; [wsolve|try lia|try lia|wsolve|]
  | |- wp _ _ (passert _) _ _ => apply wp_assert; [first [reflexivity
        | apply Nat.leb_le; lia | apply Nat.ltb_lt; lia | apply Nat.eqb_eq; lia | idtac]|]
  | |- wp _ _ (Ret _) _ _ => cbn [wp]
  end.

(** Goals [wrote m a v (upd m a v')] left after the store of a loop body. *)
Ltac wrote_tac := cbv beta; apply wrote_upd; [first [eapply valloc_get; [solve [eauto with view]|lia] | eapply malloc_get; [solve [eauto with view]|lia|lia]] | cbv beta; bsplit; try reflexivity].
