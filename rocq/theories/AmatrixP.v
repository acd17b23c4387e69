(** * Proofs about the dense matrix kernels (model: Amatrix.v) *)
From Coq Require Import Arith Lia List Bool NArith Ring.
From Verif Require Import Fld Prog View Spec Loop Avector AvectorP Amatrix.
Import ListNotations.

(** ** Sub-matrices *)
Definition subm (A : mat) (roff rows coff cols : nat) : mat :=
  Mat (mblk A) (moff A + roff + mld A * coff) (mld A) rows cols false.

Lemma ma_subm A roff rows coff cols i j :
  ma (subm A roff rows coff cols) i j = ma A (roff + i) (coff + j).
Proof. unfold ma, subm; cbn. f_equal. lia. Qed.

Lemma mwf_subm A roff rows coff cols :
  mwf A -> roff + rows <= mrows A -> mwf (subm A roff rows coff cols).
Proof. unfold mwf, subm; cbn. lia. Qed.

Lemma inm_subm A roff rows coff cols : roff + rows <= mrows A -> coff + cols <= mcols A ->
  forall a, inm (subm A roff rows coff cols) a -> inm A a.
Proof.
  intros Hr Hc a [i [j [Hi [Hj ->]]]]. rewrite ma_subm. cbn in Hi, Hj. apply inm_ma; lia.
Qed.

Lemma mval_subm {K} (m : mem K) A f roff rows coff cols :
  mval m A f -> roff + rows <= mrows A -> coff + cols <= mcols A ->
  mval m (subm A roff rows coff cols) (fun i j => f (roff + i) (coff + j)).
Proof. intros H Hr Hc i j Hi Hj. rewrite ma_subm. cbn in Hi, Hj. apply H; lia. Qed.

Lemma malloc_subm {K} (m : mem K) A roff rows coff cols :
  malloc m A -> roff + rows <= mrows A -> coff + cols <= mcols A ->
  malloc m (subm A roff rows coff cols).
Proof. intros H Hr Hc i j Hi Hj. rewrite ma_subm. cbn in Hi, Hj. apply H; lia. Qed.

Lemma mval_subm_back {K} (m m' : mem K) A f g roff rows coff cols :
  mwf A -> mval m A f -> roff + rows <= mrows A -> coff + cols <= mcols A ->
  mval m' (subm A roff rows coff cols) g ->
  keeps (inm (subm A roff rows coff cols)) m m' ->
  mval m' A (fun i j => if (roff <=? i) && (i <? roff + rows) && (coff <=? j) && (j <? coff + cols)
                        then g (i - roff) (j - coff) else f i j).
Proof.
  intros Hw H Hr Hc Hg [Hn Hk] i j Hi Hj.
  assert (Hout : ~ (roff <= i < roff + rows /\ coff <= j < coff + cols) ->
                 get m' (ma A i j) = Val (f i j)).
  { intros Ho. rewrite Hk; [apply H; assumption|]. intros [k [l [Hk' [Hl' E]]]].
    rewrite ma_subm in E. cbn in Hk', Hl'. apply ma_inj in E; [|exact Hw|lia|lia]. lia. }
  bsplit; try (apply Hout; lia).
  specialize (Hg (i - roff) (j - coff)). rewrite ma_subm in Hg.
  replace (roff + (i - roff)) with i in Hg by lia. replace (coff + (j - coff)) with j in Hg by lia.
  apply Hg; cbn; lia.
Qed.

Lemma keeps_subm {K} (m m' : mem K) A roff rows coff cols :
  roff + rows <= mrows A -> coff + cols <= mcols A ->
  keeps (inm (subm A roff rows coff cols)) m m' -> keeps (inm A) m m'.
Proof. intros Hr Hc. apply keeps_mono. apply inm_subm; assumption. Qed.

Section AmatrixP.
Context {K : fops}.
Implicit Types (m : mem K) (R W : addr -> Prop) (x y : vec) (A B C : mat).

Lemma wp_init_sub_amatrix R W A rows roff cols coff m (Q : mat -> mem K -> Prop) :
  roff + rows <= mrows A -> coff + cols <= mcols A ->
  Q (subm A roff rows coff cols) m -> wp R W (init_sub_amatrix A rows roff cols coff) m Q.
Proof. intros H H' HQ. unfold init_sub_amatrix. do 3 wstep. exact HQ. Qed.

Lemma wp_init_amatrix R W rows cols m (Q : mat -> mem K -> Prop) :
  (forall A, A = Mat (next m) 0 rows rows cols true -> mwf A -> malloc (alloc m (rows * cols)) A ->
     Q A (alloc m (rows * cols))) ->
  wp R W (init_amatrix rows cols) m Q.
Proof.
  intros HQ. cbn. apply HQ; [reflexivity|unfold mwf; cbn; lia|].
  intros i j Hi Hj. cbn in *. unfold ma; cbn. rewrite get_alloc_new.
  destruct (Nat.ltb_spec (i + j * rows) (rows * cols)) as [H|H]; [discriminate|].
  exfalso. assert (S j * rows <= cols * rows) by (apply Nat.mul_le_mono_r; lia).
  rewrite (Nat.mul_comm rows cols) in H. cbn in *. lia.
Qed.

Lemma wp_clear_amatrix R W A m (Q : unit -> mem K -> Prop) :
  mwf A -> malloc m A -> wrok W (inm A) ->
  (forall m', mval m' A (fun _ _ => f0) -> keeps (inm A) m m' -> Q tt m') ->
  wp R W (clear_amatrix A) m Q.
Proof.
  intros Hw Ha Hww HQ. unfold clear_amatrix.
  eapply wp_mfill with (g := fun _ _ : nat => (f0 : K)) (A := A); eauto.
  intros i j m1 Hj Hi Ha1 Hk. wstep. wrote_tac.
Qed.

Lemma wp_random_amatrix R W rnd A m (Q : unit -> mem K -> Prop) :
  mwf A -> malloc m A -> wrok W (inm A) ->
  (forall m', mval m' A rnd -> keeps (inm A) m m' -> Q tt m') ->
  wp R W (random_amatrix rnd A) m Q.
Proof.
  intros Hw Ha Hww HQ. unfold random_amatrix.
  eapply wp_mfill with (g := rnd) (A := A); eauto.
  intros i j m1 Hj Hi Ha1 Hk. wstep. wrote_tac.
Qed.

Lemma wp_diag_one R W A n f m (Q : unit -> mem K -> Prop) :
  mwf A -> mval m A f -> n <= mrows A -> n <= mcols A -> wrok W (inm A) ->
  (forall m', mval m' A (fun i j => if (i =? j) && (i <? n) then f1 else f i j) ->
     keeps (inm A) m m' -> Q tt m') ->
  wp R W (for_ 0 n (fun i => mstore A i i f1)) m Q.
Proof.
  intros Hw Hv Hr Hc Hww HQ.
  apply (wp_for (fun n m1 => mval m1 A (fun i j => if (i =? j) && (i <? n) then f1 else f i j)
            /\ keeps (inm A) m m1)).
  - split; [|apply keeps_refl]. eapply mval_ext; [exact Hv|]. intros; cbv beta; bsplit; reflexivity.
  - intros i m1 Hi [Hv1 Hk]. wstep.
    assert (Hwr : wrote m1 (ma A i i) f1 (upd m1 (ma A i i) f1)) by wrote_tac.
    split.
    + eapply mval_fupd_step; [exact Hw|exact Hv1|exact Hwr|lia|].
      intros k l Hk' Hl; cbv beta; bsplit; subst; try reflexivity; lia.
    + eapply wrote_keeps; [exact Hk|exact Hwr|]. apply inm_ma; lia.
  - intros m1 [H1 H2]. auto.
Qed.

Lemma wp_identity_amatrix R W A m (Q : unit -> mem K -> Prop) :
  mwf A -> malloc m A -> wrok W (inm A) ->
  (forall m', mval m' A idf -> keeps (inm A) m m' -> Q tt m') ->
  wp R W (identity_amatrix A) m Q.
Proof.
  intros Hw Ha Hww HQ. unfold identity_amatrix. apply wp_bind.
  apply wp_clear_amatrix; auto. intros m1 Hv1 Hk1.
  eapply wp_diag_one; eauto; try lia. intros m2 Hv2 Hk2. apply HQ.
  - eapply mval_ext; [exact Hv2|]. intros i j Hi Hj; cbv beta. unfold idf.
    bsplit; reflexivity.
  - eapply keeps_trans; eauto.
Qed.

(** Contents restricted to a triangle: clear_lower / clear_upper. *)
Lemma wp_clear_lower_amatrix R W A (strict : bool) f m (Q : unit -> mem K -> Prop) :
  mwf A -> mval m A f -> wrok W (inm A) ->
  (forall m', mval m' A (fun i j => if (if strict then j <? i else j <=? i) then f0 else f i j) ->
     keeps (inm A) m m' -> Q tt m') ->
  wp R W (clear_lower_amatrix A strict) m Q.
Proof.
  intros Hw Hv Hww HQ. unfold clear_lower_amatrix. destruct strict.
  - eapply wp_mloop with (A := A) (f := f) (g := fun _ _ : nat => (f0 : K)) (lo := fun j : nat => j + 1)
      (cnt := fun j : nat => mrows A - (j + 1)); eauto; try (intros; lia).
    + intros i j m1 Hj Hi Hi' Hv1 Hk1. wstep. wrote_tac.
    + intros m' Hv' Hk'. apply HQ; [|exact Hk']. eapply mval_ext; [exact Hv'|].
      intros i j Hi Hj; cbv beta. bsplit; reflexivity.
  - eapply wp_mloop with (A := A) (f := f) (g := fun _ _ : nat => (f0 : K)) (lo := fun j : nat => j)
      (cnt := fun j : nat => mrows A - j); eauto; try (intros; lia).
    + intros i j m1 Hj Hi Hi' Hv1 Hk1. wstep. wrote_tac.
    + intros m' Hv' Hk'. apply HQ; [|exact Hk']. eapply mval_ext; [exact Hv'|].
      intros i j Hi Hj; cbv beta. bsplit; reflexivity.
Qed.

Lemma wp_clear_upper_amatrix R W A (strict : bool) f m (Q : unit -> mem K -> Prop) :
  mwf A -> mval m A f -> wrok W (inm A) -> (strict = true \/ 0 < mrows A \/ mcols A = 0) ->
  (forall m', mval m' A (fun i j => if (if strict then i <? j else i <=? j) then f0 else f i j) ->
     keeps (inm A) m m' -> Q tt m') ->
  wp R W (clear_upper_amatrix A strict) m Q.
Proof.
  intros Hw Hv Hww Hs HQ. unfold clear_upper_amatrix. destruct strict.
  - eapply wp_mloop with (A := A) (f := f) (g := fun _ _ : nat => (f0 : K)) (lo := fun _ : nat => 0)
      (cnt := fun j : nat => Nat.min j (mrows A)); eauto; try (intros; lia).
    + intros i j m1 Hj Hi Hi' Hv1 Hk1. wstep. wrote_tac.
    + intros m' Hv' Hk'. apply HQ; [|exact Hk']. eapply mval_ext; [exact Hv'|].
      intros i j Hi Hj; cbv beta. bsplit; reflexivity.
  - eapply wp_mloop with (A := A) (f := f) (g := fun _ _ : nat => (f0 : K)) (lo := fun _ : nat => 0)
      (cnt := fun j : nat => S (if mrows A =? 0 then j else Nat.min j (mrows A - 1))); eauto.
    + intros j Hj. bsplit; destruct Hs as [?|[?|?]]; try discriminate; lia.
    + intros i j m1 Hj Hi Hi' Hv1 Hk1. wstep. wrote_tac.
    + intros m' Hv' Hk'. apply HQ; [|exact Hk']. eapply mval_ext; [exact Hv'|].
      intros i j Hi Hj; cbv beta. bsplit; reflexivity.
Qed.

(** ** Copying *)
Lemma wp_copy_sub_amatrix R W (t : bool) A B f g m (Q : unit -> mem K -> Prop) :
  mwf B -> mval m A f -> mval m B g -> disj (inm A) (inm B) -> rdok R W (inm A) -> wrok W (inm B) ->
  (forall m', mval m' B (fun i j =>
       if (i <? if t then mcols A else mrows A) && (j <? if t then mrows A else mcols A)
       then tr t f i j else g i j) ->
     keeps (inm B) m m' -> Q tt m') ->
  wp R W (copy_sub_amatrix t A B) m Q.
Proof.
  intros Hw HA HB Hd Hr Hww HQ. unfold copy_sub_amatrix. destruct t; cbn [tr] in *.
  - eapply wp_mloopr with (A := B) (f := g) (g := fun i j => fconj (f j i)); eauto; try lia.
    + intros i j m1 Hj Hi Hv1 Hk1. assert (mval m1 A f) by (eapply mval_keeps; eauto).
      wstep. wstep. wrote_tac.
    + intros m' Hv' Hk'. apply HQ; [|exact Hk']. eapply mval_ext; [exact Hv'|].
      intros i j Hi Hj; cbv beta. bsplit; reflexivity.
  - eapply wp_mloop with (A := B) (f := g) (g := f) (lo := fun _ : nat => 0)
      (cnt := fun j : nat => Nat.min (mrows A) (mrows B)); eauto; try (intros; lia).
    + intros i j m1 Hj Hi Hi' Hv1 Hk1. assert (mval m1 A f) by (eapply mval_keeps; eauto).
      wstep. wstep. wrote_tac.
    + intros m' Hv' Hk'. apply HQ; [|exact Hk']. eapply mval_ext; [exact Hv'|].
      intros i j Hi Hj; cbv beta. bsplit; reflexivity.
Qed.

Lemma wp_copy_amatrix R W (t : bool) A B f m (Q : unit -> mem K -> Prop) :
  mwf B -> mval m A f -> malloc m B -> disj (inm A) (inm B) -> rdok R W (inm A) -> wrok W (inm B) ->
  (if t then mcols A else mrows A) = mrows B -> (if t then mrows A else mcols A) = mcols B ->
  (forall m', mval m' B (tr t f) -> keeps (inm B) m m' -> Q tt m') ->
  wp R W (copy_amatrix t A B) m Q.
Proof.
  intros Hw HA HB Hd Hr Hww H1 H2 HQ. unfold copy_amatrix, copy_sub_amatrix. destruct t; cbn [tr] in *.
  - wstep. wstep. eapply wp_mfillr with (A := B) (g := fun i j => fconj (f j i)); eauto; try lia.
    intros i j m1 Hj Hi Hv1 Hk1. assert (mval m1 A f) by (eapply mval_keeps; eauto).
    wstep. wstep. wrote_tac.
  - wstep. wstep. eapply wp_mfill with (A := B) (g := f); eauto; try lia.
    intros i j m1 Hj Hi Hv1 Hk1. assert (mval m1 A f) by (eapply mval_keeps; eauto).
    wstep. wstep. wrote_tac.
Qed.

Lemma wp_copy_colpiv_amatrix R W (t : bool) A p B f m (Q : unit -> mem K -> Prop) :
  mwf B -> mval m A f -> malloc m B -> disj (inm A) (inm B) -> rdok R W (inm A) -> wrok W (inm B) ->
  (forall j, j < mcols A -> p j < mcols A) ->
  (if t then mcols A else mrows A) = mrows B -> (if t then mrows A else mcols A) = mcols B ->
  (forall m', mval m' B (tr t (fun i j => f i (p j))) -> keeps (inm B) m m' -> Q tt m') ->
  wp R W (copy_colpiv_amatrix t A p B) m Q.
Proof.
  intros Hw HA HB Hd Hr Hww Hp H1 H2 HQ. unfold copy_colpiv_amatrix. destruct t; cbn [tr] in *.
  - wstep. wstep.
    apply (wp_for (fun j m1 => malloc m1 B /\ (forall k l, k < j -> l < mrows A ->
             get m1 (ma B k l) = Val (fconj (f l (p k)))) /\ keeps (inm B) m m1)).
    + split; [exact HB|]. split; [intros; lia|apply keeps_refl].
    + intros j m1 Hj [Ha1 [Hv1 Hk1]]. wstep; [apply Nat.ltb_lt; apply Hp; lia|].
      apply (wp_for (fun i m2 => malloc m2 B /\ (forall k l, k < j \/ (k = j /\ l < i) -> l < mrows A ->
             get m2 (ma B k l) = Val (fconj (f l (p k)))) /\ keeps (inm B) m m2)).
      * split; [exact Ha1|]. split; [|exact Hk1]. intros k l [Hk|Hk] Hl; [auto|lia].
      * intros i m2 Hi [Ha2 [Hv2 Hk2]]. assert (mval m2 A f) by (eapply mval_keeps; eauto).
        assert (p j < mcols A) by (apply Hp; lia).
        wstep. wstep.
        assert (Hwr : wrote m2 (ma B j i) (fconj (f i (p j))) (upd m2 (ma B j i) (fconj (f i (p j)))))
          by wrote_tac.
        split; [|split].
        -- intros k l Hk' Hl'. eapply wrote_nfree; eauto.
        -- intros k l Hk Hl. destruct (addr_eqb_spec (ma B k l) (ma B j i)) as [E|E].
           ++ apply ma_inj in E as [-> ->]; [apply Hwr|exact Hw|lia|lia].
           ++ rewrite (proj2 (proj2 Hwr)) by exact E. apply Hv2; [|exact Hl].
              destruct Hk as [?|[-> ?]]; [auto|]. right. split; [reflexivity|].
              assert (l <> i) by (intros ->; auto). lia.
        -- eapply wrote_keeps; [exact Hk2|exact Hwr|]. apply inm_ma; lia.
      * intros m2 [Ha2 [Hv2 Hk2]]. split; [exact Ha2|]. split; [|exact Hk2].
        intros k l Hk Hl. apply Hv2; [|exact Hl]. lia.
    + intros m1 [Ha1 [Hv1 Hk1]]. apply HQ; [|exact Hk1]. intros k l Hk Hl. apply Hv1; lia.
  - wstep. wstep.
    apply (wp_for (fun j m1 => malloc m1 B /\ (forall k l, l < j -> k < mrows A ->
             get m1 (ma B k l) = Val (f k (p l))) /\ keeps (inm B) m m1)).
    + split; [exact HB|]. split; [intros; lia|apply keeps_refl].
    + intros j m1 Hj [Ha1 [Hv1 Hk1]]. wstep; [apply Nat.ltb_lt; apply Hp; lia|].
      apply (wp_for (fun i m2 => malloc m2 B /\ (forall k l, l < j \/ (l = j /\ k < i) -> k < mrows A ->
             get m2 (ma B k l) = Val (f k (p l))) /\ keeps (inm B) m m2)).
      * split; [exact Ha1|]. split; [|exact Hk1]. intros k l [Hk|Hk] Hl; [auto|lia].
      * intros i m2 Hi [Ha2 [Hv2 Hk2]]. assert (mval m2 A f) by (eapply mval_keeps; eauto).
        assert (p j < mcols A) by (apply Hp; lia).
        wstep. wstep.
        assert (Hwr : wrote m2 (ma B i j) (f i (p j)) (upd m2 (ma B i j) (f i (p j))))
          by wrote_tac.
        split; [|split].
        -- intros k l Hk' Hl'. eapply wrote_nfree; eauto.
        -- intros k l Hk Hl. destruct (addr_eqb_spec (ma B k l) (ma B i j)) as [E|E].
           ++ apply ma_inj in E as [-> ->]; [apply Hwr|exact Hw|lia|lia].
           ++ rewrite (proj2 (proj2 Hwr)) by exact E. apply Hv2; [|exact Hl].
              destruct Hk as [?|[-> ?]]; [auto|]. right. split; [reflexivity|].
              assert (k <> i) by (intros ->; auto). lia.
        -- eapply wrote_keeps; [exact Hk2|exact Hwr|]. apply inm_ma; lia.
      * intros m2 [Ha2 [Hv2 Hk2]]. split; [exact Ha2|]. split; [|exact Hk2].
        intros k l Hk Hl. apply Hv2; [|exact Hl]. lia.
    + intros m1 [Ha1 [Hv1 Hk1]]. apply HQ; [|exact Hk1]. intros k l Hk Hl. apply Hv1; lia.
Qed.

Lemma wp_scale_amatrix R W alpha A f m (Q : unit -> mem K -> Prop) :
  mwf A -> mval m A f -> wrok W (inm A) ->
  (forall m', mval m' A (fun i j => f i j * alpha)%F -> keeps (inm A) m m' -> Q tt m') ->
  wp R W (scale_amatrix alpha A) m Q.
Proof.
  intros Hw HA Hww HQ. unfold scale_amatrix.
  eapply wp_mloop with (A := A) (f := f) (g := fun i j => (f i j * alpha)%F) (lo := fun _ : nat => 0)
      (cnt := fun j : nat => mrows A); eauto; try (intros; lia).
  + intros i j m1 Hj Hi Hi' Hv1 Hk1. wstep. wstep. wrote_tac.
  + intros m' Hv' Hk'. apply HQ; [|exact Hk']. eapply mval_ext; [exact Hv'|].
    intros i j Hi Hj; cbv beta. bsplit; reflexivity.
Qed.

Lemma wp_conjugate_amatrix R W A f m (Q : unit -> mem K -> Prop) :
  mwf A -> mval m A f -> wrok W (inm A) ->
  (forall m', mval m' A (fun i j => fconj (f i j)) -> keeps (inm A) m m' -> Q tt m') ->
  wp R W (conjugate_amatrix A) m Q.
Proof.
  intros Hw HA Hww HQ. unfold conjugate_amatrix.
  eapply wp_mloop with (A := A) (f := f) (g := fun i j => fconj (f i j)) (lo := fun _ : nat => 0)
      (cnt := fun j : nat => mrows A); eauto; try (intros; lia).
  + intros i j m1 Hj Hi Hi' Hv1 Hk1. wstep. wstep. wrote_tac.
  + intros m' Hv' Hk'. apply HQ; [|exact Hk']. eapply mval_ext; [exact Hv'|].
    intros i j Hi Hj; cbv beta. bsplit; reflexivity.
Qed.

Context (L : ring_laws K).
Add Ring Kring : (rl_ring K L).

Lemma wp_dsum R W (h : nat -> nat -> K) (body : nat -> nat -> K -> prog K K) nr nc m
  (Q : K -> mem K -> Prop) :
  (forall i j s, i < nr -> j < nc ->
     wp R W (body i j s) m (fun s' m' => s' = (s + h i j)%F /\ m' = m)) ->
  Q (sum nc (fun j => sum nr (fun i => h i j))) m ->
  wp R W (forS 0 nc (fun j s => forS 0 nr (fun i s => body i j s) s) f0) m Q.
Proof.
  intros Hb HQ.
  eapply wp_fold with (g := fun n => sum n (fun j => sum nr (fun i => h i j))); [reflexivity| |exact HQ].
  intros j Hj.
  eapply wp_fold with (g := fun n => (sum j (fun j => sum nr (fun i => h i j)) + sum n (fun i => h i j))%F).
  - cbn [sum]. ring.
  - intros i Hi. eapply wp_conseq; [apply Hb; lia|]. cbn [sum]. intros s' m' [-> ->].
    split; [ring|reflexivity].
  - auto.
Qed.

Lemma wp_dotprod_amatrix R W A B f g m (Q : K -> mem K -> Prop) :
  mval m A f -> mval m B g -> mrows A = mrows B -> mcols A = mcols B ->
  rdok R W (inm A) -> rdok R W (inm B) ->
  Q (sum (mcols A) (fun j => sum (mrows A) (fun i => fconj (f i j) * g i j)%F)) m ->
  wp R W (dotprod_amatrix A B) m Q.
Proof.
  intros HA HB Hr Hc HrA HrB HQ. unfold dotprod_amatrix. wstep. wstep.
  eapply wp_dsum; [|exact HQ]. intros i j s Hi Hj. wstep. wstep. wstep. auto.
Qed.

Lemma wp_normfrob2_amatrix R W A f m (Q : K -> mem K -> Prop) :
  mval m A f -> rdok R W (inm A) ->
  Q (sum (mcols A) (fun j => sum (mrows A) (fun i => fconj (f i j) * f i j)%F)) m ->
  wp R W (normfrob2_amatrix A) m Q.
Proof.
  intros HA HrA HQ. unfold normfrob2_amatrix.
  eapply wp_dsum; [|exact HQ]. intros i j s Hi Hj. wstep. wstep. auto.
Qed.

Lemma wp_normfrob_amatrix R W sq A f m (Q : K -> mem K -> Prop) :
  mval m A f -> rdok R W (inm A) ->
  Q (sq (sum (mcols A) (fun j => sum (mrows A) (fun i => fconj (f i j) * f i j)%F))) m ->
  wp R W (normfrob_amatrix sq A) m Q.
Proof.
  intros HA HrA HQ. unfold normfrob_amatrix. apply wp_bind. eapply wp_normfrob2_amatrix; eauto.
Qed.

(** ** Matrix-vector products *)
Lemma wp_addeval_amatrix_avector R W alpha A x y f g h m (Q : unit -> mem K -> Prop) :
  mval m A f -> vval m x g -> vval m y h -> mcols A <= vdim x -> mrows A <= vdim y ->
  disj (inm A) (inv y) -> disj (inv x) (inv y) ->
  rdok R W (inm A) -> rdok R W (inv x) -> wrok W (inv y) ->
  (forall m', vval m' y (fun i => if i <? mrows A
       then (h i + alpha * sum (mcols A) (fun j => f i j * g j))%F else h i) ->
     keeps (inv y) m m' -> Q tt m') ->
  wp R W (addeval_amatrix_avector alpha A x y) m Q.
Proof.
  intros HA Hx Hy Hdx Hdy HdA Hdxy HrA Hrx Hwy HQ. unfold addeval_amatrix_avector. wstep. wstep.
  eapply wp_vloop with (y := y) (f := h)
    (g := fun i => (h i + alpha * sum (mcols A) (fun j => f i j * g j))%F); eauto.
  - intros i m1 Hi Hv1 Hk1.
    assert (mval m1 A f) by (eapply mval_keeps; eauto).
    assert (vval m1 x g) by (eapply vval_keeps; eauto).
    apply wp_bind.
    eapply wp_fold with (g := fun n => sum n (fun j => f i j * g j)%F); [reflexivity| |].
    + intros j Hj. wstep. wstep. wstep. auto.
    + wstep. wstep. wrote_tac.
Qed.

Lemma wp_addevaltrans_amatrix_avector R W alpha A x y f g h m (Q : unit -> mem K -> Prop) :
  mval m A f -> vval m x g -> vval m y h -> mrows A <= vdim x -> mcols A <= vdim y ->
  disj (inm A) (inv y) -> disj (inv x) (inv y) ->
  rdok R W (inm A) -> rdok R W (inv x) -> wrok W (inv y) ->
  (forall m', vval m' y (fun j => if j <? mcols A
       then (h j + alpha * sum (mrows A) (fun i => fconj (f i j) * g i))%F else h j) ->
     keeps (inv y) m m' -> Q tt m') ->
  wp R W (addevaltrans_amatrix_avector alpha A x y) m Q.
Proof.
  intros HA Hx Hy Hdx Hdy HdA Hdxy HrA Hrx Hwy HQ. unfold addevaltrans_amatrix_avector. wstep. wstep.
  eapply wp_vloop with (y := y) (f := h)
    (g := fun j => (h j + alpha * sum (mrows A) (fun i => fconj (f i j) * g i))%F); eauto.
  - intros i m1 Hi Hv1 Hk1.
    assert (mval m1 A f) by (eapply mval_keeps; eauto).
    assert (vval m1 x g) by (eapply vval_keeps; eauto).
    apply wp_bind.
    eapply wp_fold with (g := fun n => sum n (fun j => fconj (f j i) * g j)%F); [reflexivity| |].
    + intros j Hj. wstep. wstep. wstep. auto.
    + wstep. wstep. wrote_tac.
Qed.

Lemma wp_mvm_amatrix_avector R W alpha (t : bool) A x y f g h m (Q : unit -> mem K -> Prop) :
  mval m A f -> vval m x g -> vval m y h ->
  (if t then mrows A else mcols A) <= vdim x -> (if t then mcols A else mrows A) <= vdim y ->
  disj (inm A) (inv y) -> disj (inv x) (inv y) ->
  rdok R W (inm A) -> rdok R W (inv x) -> wrok W (inv y) ->
  (forall m', vval m' y (fun i => if i <? (if t then mcols A else mrows A)
       then (h i + alpha * sum (if t then mrows A else mcols A) (fun j => tr t f i j * g j))%F else h i) ->
     keeps (inv y) m m' -> Q tt m') ->
  wp R W (mvm_amatrix_avector alpha t A x y) m Q.
Proof.
  intros. unfold mvm_amatrix_avector. destruct t.
  - eapply wp_addevaltrans_amatrix_avector; eauto.
  - eapply wp_addeval_amatrix_avector; eauto.
Qed.

Lemma wp_add_amatrix R W alpha (t : bool) A B f g m (Q : unit -> mem K -> Prop) :
  mwf B -> mval m A f -> mval m B g -> disj (inm A) (inm B) -> rdok R W (inm A) -> wrok W (inm B) ->
  (if t then mcols A else mrows A) <= mrows B -> (if t then mrows A else mcols A) <= mcols B ->
  (forall m', mval m' B (fun i j =>
       if (i <? if t then mcols A else mrows A) && (j <? if t then mrows A else mcols A)
       then (g i j + alpha * tr t f i j)%F else g i j) ->
     keeps (inm B) m m' -> Q tt m') ->
  wp R W (add_amatrix alpha t A B) m Q.
Proof.
  intros Hw HA HB Hd Hr Hww H1 H2 HQ. unfold add_amatrix. destruct t; cbn [tr] in *.
  - wstep. wstep.
    eapply wp_mloop with (A := B) (f := g) (g := fun i j => (g i j + alpha * fconj (f j i))%F)
      (lo := fun _ : nat => 0) (cnt := fun _ : nat => mcols A) (nc := mrows A)
      (body := fun j i => x <- mload A i j ;; y <- mload B j i ;; mstore B j i (y + alpha * fconj x)%F);
      eauto; try (intros; lia).
    + intros i j m1 Hj Hi Hi' Hv1 Hk1. assert (mval m1 A f) by (eapply mval_keeps; eauto).
      wstep. wstep. wstep. wrote_tac.
    + intros m' Hv' Hk'. apply HQ; [|exact Hk']. eapply mval_ext; [exact Hv'|].
      intros i j Hi Hj; cbv beta. bsplit; reflexivity.
  - wstep. wstep.
    eapply wp_mloop with (A := B) (f := g) (g := fun i j => (g i j + alpha * f i j)%F)
      (lo := fun _ : nat => 0) (cnt := fun _ : nat => mrows A); eauto; try (intros; lia).
    + intros i j m1 Hj Hi Hi' Hv1 Hk1. assert (mval m1 A f) by (eapply mval_keeps; eauto).
      wstep. wstep. wstep. wrote_tac.
    + intros m' Hv' Hk'. apply HQ; [|exact Hk']. eapply mval_ext; [exact Hv'|].
      intros i j Hi Hj; cbv beta. bsplit; reflexivity.
Qed.

(** ** Matrix-matrix product *)
Lemma wp_addmul_amatrix R W alpha (ta : bool) A (tb : bool) B C f g h m (Q : unit -> mem K -> Prop) :
  mwf C -> mval m A f -> mval m B g -> mval m C h ->
  disj (inm A) (inm C) -> disj (inm B) (inm C) ->
  rdok R W (inm A) -> rdok R W (inm B) -> wrok W (inm C) ->
  (if ta then mcols A else mrows A) <= mrows C ->
  (if tb then mrows B else mcols B) <= mcols C ->
  (if ta then mrows A else mcols A) = (if tb then mcols B else mrows B) ->
  (forall m', mval m' C (fun i k =>
       if (i <? if ta then mcols A else mrows A) && (k <? if tb then mrows B else mcols B)
       then (h i k + alpha * sum (if ta then mrows A else mcols A) (fun j => tr ta f i j * tr tb g j k))%F
       else h i k) ->
     keeps (inm C) m m' -> Q tt m') ->
  wp R W (addmul_amatrix alpha ta A tb B C) m Q.
Proof.
  intros Hw HA HB HC HdA HdB HrA HrB Hww Hr Hc Hmid HQ.
  set (nr := if ta then mcols A else mrows A) in *.
  set (nc := if tb then mrows B else mcols B) in *.
  set (mid := if ta then mrows A else mcols A) in *.
  set (S := fun n i k => (h i k + alpha * sum n (fun j => tr ta f i j * tr tb g j k))%F).
  assert (HQ' : forall m', mval m' C (fun i k => if (i <? nr) && (k <? nc) then S mid i k else h i k) ->
              keeps (inm C) m m' -> Q tt m') by (intros; apply HQ; assumption).
  assert (HS0 : forall i k, h i k = S 0 i k) by (intros; unfold S; cbn [sum]; ring).
  assert (HS1 : forall n i k, (S n i k + alpha * tr ta f i n * tr tb g n k = S (Datatypes.S n) i k)%F)
    by (intros; unfold S; cbn [sum]; ring).
  clearbody S. clear HQ.
  unfold addmul_amatrix.
  destruct ((mrows A =? 0) || (mcols A =? 0) || (mrows B =? 0) || (mcols B =? 0)) eqn:E0.
  { cbn [wp]. apply HQ'; [|apply keeps_refl]. eapply mval_ext; [exact HC|].
    intros i k Hi Hk; cbv beta. bsplit; try reflexivity.
    assert (mid = 0) as Hz.
    { subst nr nc mid. destruct ta, tb; repeat (apply orb_true_iff in E0 as [E0|E0]);
      apply Nat.eqb_eq in E0; lia. }
    rewrite Hz. apply HS0. }
  clear E0.
  destruct ta, tb; subst nr nc mid; cbn [tr] in *.
  - wstep. wstep. wstep.
    eapply wp_mloopr with (A := C) (f := h) (g := S (mrows A)); eauto; try lia.
    intros i k m1 Hk Hi Hv1 Hk1.
    eapply wp_cell with (a := ma C i k) (g := fun n : nat => S n i k).
    + rewrite Hv1 by lia. cbv beta. bsplit. rewrite HS0. reflexivity.
    + intros j m2 Hj Hwr.
      assert (Hk2 : keeps (inm C) m m2) by (eapply wrote_keeps; eauto; apply inm_ma; lia).
      assert (mval m2 A f) by (eapply mval_keeps; eauto).
      assert (mval m2 B g) by (eapply mval_keeps; eauto).
      apply wp_bind. eapply wp_pload; [apply Hwr|right; apply Hww; apply inm_ma; lia|].
      wstep. wstep. apply wp_pstore; [rewrite (proj1 (proj2 Hwr)); discriminate|apply Hww, inm_ma; lia|].
      apply wrote_upd; [rewrite (proj1 (proj2 Hwr)); discriminate|]. rewrite <- HS1. reflexivity.
    + auto.
  - wstep. wstep. wstep.
    eapply wp_mloop with (A := C) (f := h) (g := S (mrows A)) (lo := fun _ : nat => 0) (cnt := fun _ : nat => mcols A)
      (body := fun i k => for_ 0 (mrows A) (fun j =>
        z <- mload C i k ;; x <- mload A j i ;; y <- mload B j k ;;
        mstore C i k (z + alpha * fconj x * y)%F)); eauto; try lia.
    + intros i k m1 Hk Hi Hi' Hv1 Hk1.
      eapply wp_cell with (a := ma C i k) (g := fun n : nat => S n i k).
      * rewrite Hv1 by lia. cbv beta. bsplit. rewrite HS0. reflexivity.
      * intros j m2 Hj Hwr.
        assert (Hk2 : keeps (inm C) m m2) by (eapply wrote_keeps; eauto; apply inm_ma; lia).
        assert (mval m2 A f) by (eapply mval_keeps; eauto).
        assert (mval m2 B g) by (eapply mval_keeps; eauto).
        apply wp_bind. eapply wp_pload; [apply Hwr|right; apply Hww; apply inm_ma; lia|].
        wstep. wstep. apply wp_pstore; [rewrite (proj1 (proj2 Hwr)); discriminate|apply Hww, inm_ma; lia|].
        apply wrote_upd; [rewrite (proj1 (proj2 Hwr)); discriminate|]. rewrite <- HS1. reflexivity.
      * auto.
    + intros m' Hv' Hk'. apply HQ'; [|exact Hk']. eapply mval_ext; [exact Hv'|].
      intros i k Hi Hk; cbv beta. bsplit; reflexivity.
  - wstep. wstep. wstep.
    apply (wp_for (fun n m1 => mval m1 C (fun i k => if (i <? mrows A) && (k <? mrows B)
        then S n i k else h i k) /\ keeps (inm C) m m1)).
    + split; [|apply keeps_refl]. eapply mval_ext; [exact HC|].
      intros i k Hi Hk; cbv beta. rewrite HS0. bsplit; reflexivity.
    + intros j m1 Hj [Hv1 Hk1].
      eapply wp_mloop with (A := C) (f := fun i k => if (i <? mrows A) && (k <? mrows B)
        then S j i k else h i k) (g := fun i k : nat => S (Datatypes.S j) i k)
        (lo := fun _ : nat => 0) (cnt := fun _ : nat => mrows A)
        (body := fun i k => z <- mload C i k ;; x <- mload A i j ;; y <- mload B k j ;;
          mstore C i k (z + alpha * x * fconj y)%F); eauto; try lia.
      * intros i k m2 Hk Hi Hi' Hv2 Hk2.
        assert (Hk2' : keeps (inm C) m m2) by (eapply keeps_trans; eauto).
        assert (mval m2 A f) by (eapply mval_keeps; eauto).
        assert (mval m2 B g) by (eapply mval_keeps; eauto).
        wstep. wstep. wstep. wstep. wrote_tac. symmetry. apply HS1.
      * intros m' Hv' Hk'. split; [|eapply keeps_trans; eauto]. eapply mval_ext; [exact Hv'|].
        intros i k Hi Hk; cbv beta. bsplit; reflexivity.
    + intros m' [Hv' Hk']. apply HQ'; assumption.
  - wstep. wstep. wstep.
    apply (wp_for (fun k0 m1 => mval m1 C (fun i k => if (i <? mrows A) && (k <? k0)
        then S (mcols A) i k else h i k) /\ keeps (inm C) m m1)).
    + split; [|apply keeps_refl]. eapply mval_ext; [exact HC|].
      intros i k Hi Hk; cbv beta. bsplit; reflexivity.
    + intros k0 m1 Hk0 [Hv1 Hk1].
      apply (wp_for (fun n m1 => mval m1 C (fun i k => if (i <? mrows A) && (k <? k0)
        then S (mcols A) i k else if (i <? mrows A) && (k =? k0) then S n i k else h i k)
          /\ keeps (inm C) m m1)).
      * split; [|exact Hk1]. eapply mval_ext; [exact Hv1|].
        intros i k Hi Hk; cbv beta. bsplit; try reflexivity; apply HS0.
      * intros j m2 Hj [Hv2 Hk2].
        eapply wp_mcol with (A := C) (j := k0) (g := fun i : nat => S (Datatypes.S j) i k0)
          (lo := 0) (n := mrows A); eauto; try lia.
        -- intros i m3 Hi Hv3 Hk3.
           assert (Hk3' : keeps (inm C) m m3) by (eapply keeps_trans; eauto).
           assert (mval m3 A f) by (eapply mval_keeps; eauto).
           assert (mval m3 B g) by (eapply mval_keeps; eauto).
           wstep. wstep. wstep. wstep. wrote_tac. symmetry. apply HS1.
        -- intros m' Hv' Hk'. split; [|eapply keeps_trans; eauto]. eapply mval_ext; [exact Hv'|].
           intros i k Hi Hk; cbv beta. bsplit; subst; reflexivity.
      * intros m2 [Hv2 Hk2]. split; [|exact Hk2]. eapply mval_ext; [exact Hv2|].
        intros i k Hi Hk; cbv beta. bsplit; subst; reflexivity.
    + intros m' [Hv' Hk']. apply HQ'; assumption.
Qed.
End AmatrixP.
