(** * Lines: vectors, rows and columns as indexed cells

    A line is a function from indices to addresses; a vector, a row and a column
    of a matrix are lines.  Rules for loops that store one value per index. *)
From Coq Require Import Arith Lia List Bool.
From Verif Require Import Fld Prog View Loop.

Section Line.
Context {K : Type}.
Implicit Types (m : mem K) (R W : addr -> Prop).

Definition lval m (c : nat -> addr) (N : nat) (f : nat -> K) : Prop :=
  forall i, i < N -> get m (c i) = Val (f i).
Definition inl (c : nat -> addr) (N : nat) (a : addr) : Prop := exists i, i < N /\ a = c i.
Definition linj (c : nat -> addr) (N : nat) : Prop :=
  forall i j, i < N -> j < N -> c i = c j -> i = j.

Lemma lval_ext m c N f g : lval m c N f -> (forall i, i < N -> f i = g i) -> lval m c N g.
Proof. intros H E i Hi. rewrite <- E by exact Hi. auto. Qed.

Lemma lval_step m m' c N f i v (G : nat -> K) :
  linj c N -> i < N -> lval m c N f -> wrote m (c i) v m' ->
  (forall k, k < N -> G k = if k =? i then v else f k) -> lval m' c N G.
Proof.
  intros Hj Hi H [_ [H1 H2]] HG k Hk. rewrite HG by exact Hk.
  destruct (Nat.eqb_spec k i) as [->|E]; [exact H1|].
  rewrite H2; [auto|]. intros E'. apply Hj in E'; auto.
Qed.

(** Loop upwards: entry [i] is given the value [g i]. *)
Lemma wp_lup R W c N lo n (f g : nat -> K) body m (Q : unit -> mem K -> Prop) :
  linj c N -> lval m c N f -> n = 0 \/ lo + n <= N ->
  (forall i m1, lo <= i < lo + n ->
     lval m1 c N (fun k => if (lo <=? k) && (k <? i) then g k else f k) ->
     keeps (inl c N) m m1 ->
     wp R W (body i) m1 (fun _ m2 => wrote m1 (c i) (g i) m2)) ->
  (forall m', lval m' c N (fun k => if (lo <=? k) && (k <? lo + n) then g k else f k) ->
     keeps (inl c N) m m' -> Q tt m') ->
  wp R W (for_ lo n body) m Q.
Proof.
  intros Hj H0 Hn Hb HQ.
  apply (wp_for (fun i m1 => lval m1 c N (fun k => if (lo <=? k) && (k <? i) then g k else f k)
                              /\ keeps (inl c N) m m1)).
  - split; [|apply keeps_refl]. eapply lval_ext; [exact H0|].
    intros k Hk; cbv beta. bsplit; reflexivity.
  - intros i m1 Hi [Hv Hk]. eapply wp_conseq; [apply Hb; assumption|].
    cbn. intros _ m2 Hwr. split.
    + eapply lval_step; [exact Hj| |exact Hv|exact Hwr|]; [lia|].
      intros k Hk'; cbv beta. bsplit; subst; reflexivity.
    + eapply wrote_keeps; [exact Hk|exact Hwr|]. exists i. split; [lia|reflexivity].
  - intros m1 [Hv Hk]. auto.
Qed.

(** Loop downwards. *)
Lemma wp_ldown R W c N n (f g : nat -> K) body m (Q : unit -> mem K -> Prop) :
  linj c N -> lval m c N f -> n <= N ->
  (forall i m1, i < n ->
     lval m1 c N (fun k => if (i <? k) && (k <? n) then g k else f k) ->
     keeps (inl c N) m m1 ->
     wp R W (body i) m1 (fun _ m2 => wrote m1 (c i) (g i) m2)) ->
  (forall m', lval m' c N (fun k => if k <? n then g k else f k) ->
     keeps (inl c N) m m' -> Q tt m') ->
  wp R W (fordown n body) m Q.
Proof.
  intros Hj H0 Hn Hb HQ.
  apply (wp_fordown (fun i m1 => lval m1 c N (fun k => if (i <=? k) && (k <? n) then g k else f k)
                              /\ keeps (inl c N) m m1)).
  - split; [|apply keeps_refl]. eapply lval_ext; [exact H0|].
    intros k Hk; cbv beta. bsplit; reflexivity.
  - intros i m1 Hi [Hv Hk]. eapply wp_conseq; [apply Hb; assumption|].
    cbn. intros _ m2 Hwr. split.
    + eapply lval_step; [exact Hj| |exact Hv|exact Hwr|]; [lia|].
      intros k Hk'; cbv beta. bsplit; subst; reflexivity.
    + eapply wrote_keeps; [exact Hk|exact Hwr|]. exists i. split; [lia|reflexivity].
  - intros m1 [Hv Hk]. apply HQ; [|exact Hk]. eapply lval_ext; [exact Hv|].
    intros k Hk'; cbv beta. bsplit; reflexivity.
Qed.

(** Vectors, columns and rows. *)
Lemma linj_vec x : linj (va x) (vdim x).
Proof. intros i j _ _ E. apply va_inj in E. exact E. Qed.
Lemma linj_col A k : mwf A -> linj (fun i => ma A i k) (mrows A).
Proof. intros Hw i j Hi Hj E. apply ma_inj in E; auto. apply E. Qed.
Lemma linj_row A k : mwf A -> k < mrows A -> linj (fun j => ma A k j) (mcols A).
Proof. intros Hw Hk i j Hi Hj E. apply ma_inj in E; auto. apply E. Qed.

(** A change of one column or row, seen on the whole matrix. *)
Lemma mval_col m m' A k f g :
  mwf A -> k < mcols A -> mval m A f -> lval m' (fun i => ma A i k) (mrows A) g ->
  keeps (inl (fun i => ma A i k) (mrows A)) m m' ->
  mval m' A (fun i j => if j =? k then g i else f i j).
Proof.
  intros Hw Hk Hm Hl [_ Hkp] i j Hi Hj. destruct (Nat.eqb_spec j k) as [->|E].
  - apply Hl. exact Hi.
  - rewrite Hkp; [apply Hm; assumption|]. intros [i' [Hi' E']]. apply ma_inj in E'; auto. tauto.
Qed.

Lemma mval_row m m' A k f g :
  mwf A -> k < mrows A -> mval m A f -> lval m' (fun j => ma A k j) (mcols A) g ->
  keeps (inl (fun j => ma A k j) (mcols A)) m m' ->
  mval m' A (fun i j => if i =? k then g j else f i j).
Proof.
  intros Hw Hk Hm Hl [_ Hkp] i j Hi Hj. destruct (Nat.eqb_spec i k) as [->|E].
  - apply Hl. exact Hj.
  - rewrite Hkp; [apply Hm; assumption|]. intros [i' [Hi' E']]. apply ma_inj in E'; auto. tauto.
Qed.

Lemma keeps_col m m' A k : k < mcols A ->
  keeps (inl (fun i => ma A i k) (mrows A)) m m' -> keeps (inm A) m m'.
Proof.
  intros Hk. apply keeps_mono. intros a [i [Hi ->]]. apply inm_ma; assumption.
Qed.
Lemma keeps_row m m' A k : k < mrows A ->
  keeps (inl (fun j => ma A k j) (mcols A)) m m' -> keeps (inm A) m m'.
Proof.
  intros Hk. apply keeps_mono. intros a [i [Hi ->]]. apply inm_ma; assumption.
Qed.

(** Double loop over a rectangle, rows outside. *)
Lemma wp_rect R W A r0 nr c0 nc (f g : nat -> nat -> K) body m
  (Q : unit -> mem K -> Prop) :
  mwf A -> mval m A f -> nc = 0 \/ c0 + nc <= mcols A -> nr = 0 \/ r0 + nr <= mrows A ->
  (forall i j m1, c0 <= j < c0 + nc -> r0 <= i < r0 + nr ->
     mval m1 A (fun k l => if ((r0 <=? k) && (k <? i) && (c0 <=? l) && (l <? c0 + nc)
                              || (k =? i) && (c0 <=? l) && (l <? j)) then g k l else f k l) ->
     keeps (inm A) m m1 ->
     wp R W (body i j) m1 (fun _ m2 => wrote m1 (ma A i j) (g i j) m2)) ->
  (forall m', mval m' A (fun k l => if (r0 <=? k) && (k <? r0 + nr) && (c0 <=? l) && (l <? c0 + nc)
                            then g k l else f k l) ->
     keeps (inm A) m m' -> Q tt m') ->
  wp R W (for_ r0 nr (fun i => for_ c0 nc (fun j => body i j))) m Q.
Proof.
  intros Hw H0 Hnc Hr Hb HQ.
  apply (wp_for (fun i m1 => mval m1 A (fun k l => if (r0 <=? k) && (k <? i) && (c0 <=? l) && (l <? c0 + nc)
                                   then g k l else f k l) /\ keeps (inm A) m m1)).
  - split; [|apply keeps_refl]. eapply mval_ext; [exact H0|]. intros; cbv beta; bsplit; reflexivity.
  - intros i m1 Hi [Hv Hk].
    apply (wp_for (fun j m2 => mval m2 A (fun k l => if ((r0 <=? k) && (k <? i) && (c0 <=? l) && (l <? c0 + nc)
                              || (k =? i) && (c0 <=? l) && (l <? j))
                              then g k l else f k l)
              /\ keeps (inm A) m m2)).
    + split; [|exact Hk]. eapply mval_ext; [exact Hv|]. intros k l _ _; cbv beta. bsplit; reflexivity.
    + intros j m2 Hj [Hv2 Hk2]. eapply wp_conseq; [apply Hb; try assumption; lia|].
      cbn. intros _ m3 Hwr. split.
      * eapply mval_fupd_step; [exact Hw|exact Hv2|exact Hwr|lia|].
        intros k l Hk' Hl'; cbv beta. bsplit; subst; reflexivity.
      * eapply wrote_keeps; [exact Hk2|exact Hwr|]. apply inm_ma; lia.
    + intros m2 [Hv2 Hk2]. split; [|exact Hk2]. eapply mval_ext; [exact Hv2|].
      intros k l _ _; cbv beta. bsplit; reflexivity.
  - intros m1 [Hv Hk]. auto.
Qed.

(** The same, columns outside. *)
Lemma wp_rectc R W A r0 nr c0 nc (f g : nat -> nat -> K) body m
  (Q : unit -> mem K -> Prop) :
  mwf A -> mval m A f -> nc = 0 \/ c0 + nc <= mcols A -> nr = 0 \/ r0 + nr <= mrows A ->
  (forall i j m1, c0 <= j < c0 + nc -> r0 <= i < r0 + nr ->
     mval m1 A (fun k l => if ((c0 <=? l) && (l <? j) && (r0 <=? k) && (k <? r0 + nr)
                              || (l =? j) && (r0 <=? k) && (k <? i)) then g k l else f k l) ->
     keeps (inm A) m m1 ->
     wp R W (body i j) m1 (fun _ m2 => wrote m1 (ma A i j) (g i j) m2)) ->
  (forall m', mval m' A (fun k l => if (r0 <=? k) && (k <? r0 + nr) && (c0 <=? l) && (l <? c0 + nc)
                            then g k l else f k l) ->
     keeps (inm A) m m' -> Q tt m') ->
  wp R W (for_ c0 nc (fun j => for_ r0 nr (fun i => body i j))) m Q.
Proof.
  intros Hw H0 Hnc Hr Hb HQ.
  apply (wp_for (fun j m1 => mval m1 A (fun k l => if (c0 <=? l) && (l <? j) && (r0 <=? k) && (k <? r0 + nr)
                                   then g k l else f k l) /\ keeps (inm A) m m1)).
  - split; [|apply keeps_refl]. eapply mval_ext; [exact H0|]. intros; cbv beta; bsplit; reflexivity.
  - intros j m1 Hj [Hv Hk].
    apply (wp_for (fun i m2 => mval m2 A (fun k l => if ((c0 <=? l) && (l <? j) && (r0 <=? k) && (k <? r0 + nr)
                              || (l =? j) && (r0 <=? k) && (k <? i))
                              then g k l else f k l)
              /\ keeps (inm A) m m2)).
    + split; [|exact Hk]. eapply mval_ext; [exact Hv|]. intros k l _ _; cbv beta. bsplit; reflexivity.
    + intros i m2 Hi [Hv2 Hk2]. eapply wp_conseq; [apply Hb; try assumption; lia|].
      cbn. intros _ m3 Hwr. split.
      * eapply mval_fupd_step; [exact Hw|exact Hv2|exact Hwr|lia|].
        intros k l Hk' Hl'; cbv beta. bsplit; subst; reflexivity.
      * eapply wrote_keeps; [exact Hk2|exact Hwr|]. apply inm_ma; lia.
    + intros m2 [Hv2 Hk2]. split; [|exact Hk2]. eapply mval_ext; [exact Hv2|].
      intros k l _ _; cbv beta. bsplit; reflexivity.
  - intros m1 [Hv Hk]. apply HQ; [|exact Hk]. eapply mval_ext; [exact Hv|].
    intros k l _ _; cbv beta. bsplit; reflexivity.
Qed.
End Line.
