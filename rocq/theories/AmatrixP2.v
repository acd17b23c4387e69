(** * More proofs about amatrix.c: constructors, resizing, bidiagonal products *)
From Coq Require Import Arith Lia List Bool NArith Ring.
From Verif Require Import Fld Prog View Spec Loop Avector AvectorP Amatrix AmatrixP.
Import ListNotations.

(** Changes confined to [W] once blocks from [n] on are disregarded are changes
    confined to [W] when those blocks were free before and after. *)
Lemma keeps_alloc {K} (m : mem K) n (W : addr -> Prop) m' :
  keeps W (alloc m n) m' -> keeps (fun a => W a \/ fst a = next m) m m'.
Proof.
  intros [H1 H2]. cbn in H1. split; [lia|]. intros a Ha.
  rewrite H2 by tauto. apply get_alloc_old. tauto.
Qed.

Lemma keeps_dealloc {K} (m m1 : mem K) b (W : addr -> Prop) :
  next m <= b -> keeps (fun a => W a \/ fst a = b) m m1 -> keeps W m (dealloc m1 b).
Proof.
  intros Hb [H1 H2]. split; [cbn; lia|]. intros a Ha. rewrite get_dealloc.
  destruct (Nat.eqb_spec (fst a) b) as [E|E].
  - symmetry. apply get_fresh. lia.
  - apply H2. tauto.
Qed.

Section P2.
Context {K : fops}.
Implicit Types (m : mem K) (R W : addr -> Prop) (x y : vec) (A B C : mat).

Lemma inm_blk A a : inm A a -> fst a = mblk A.
Proof. intros [i [j [_ [_ ->]]]]. reflexivity. Qed.
Lemma inv_blk x a : inv x a -> fst a = vblk x.
Proof. intros [i [_ ->]]. reflexivity. Qed.

Lemma valloc_fresh m dim : valloc (alloc m dim) (Vec (next m) 0 dim true).
Proof.
  intros i Hi. cbn in *. unfold va; cbn. rewrite get_alloc_new.
  destruct (Nat.ltb_spec i dim); [discriminate|lia].
Qed.

Lemma wp_init_zero_avector R W dim m (Q : vec -> mem K -> Prop) :
  (forall v m', v = Vec (next m) 0 dim true -> vval m' v (fun _ => f0) ->
     keeps (fun a => fst a = next m) m m' -> next m < next m' -> Q v m') ->
  wp R W (init_zero_avector dim) m Q.
Proof.
  intros HQ. unfold init_zero_avector, init_avector. cbn [bind palloc wp].
  set (v := Vec (next m) 0 dim true).
  apply wp_bind.
  eapply (wp_clear_avector R (fun a => W a \/ fst a = next m) v);
    [apply valloc_fresh|intros a Ha; right; apply (inv_blk v a Ha)|].
  intros m' Hv Hk. cbn [wp]. apply HQ; auto.
  - apply keeps_alloc in Hk. eapply keeps_mono; [|exact Hk]. cbn.
    intros a [Ha|E]; [exact (inv_blk _ _ Ha)|exact E].
  - destruct Hk as [Hk _]. cbn in Hk. lia.
Qed.

Lemma malloc_fresh m rows cols :
  malloc (alloc m (rows * cols)) (Mat (next m) 0 rows rows cols true).
Proof.
  intros i j Hi Hj. cbn in *. unfold ma; cbn. rewrite get_alloc_new.
  destruct (Nat.ltb_spec (i + j * rows) (rows * cols)) as [H|H]; [discriminate|].
  exfalso. assert (S j * rows <= cols * rows) by (apply Nat.mul_le_mono_r; lia).
  rewrite (Nat.mul_comm rows cols) in H. cbn in *. lia.
Qed.

Lemma mwf_fresh b rows cols o : mwf (Mat b 0 rows rows cols o).
Proof. unfold mwf; cbn; lia. Qed.

Lemma wp_init_zero_amatrix R W rows cols m (Q : mat -> mem K -> Prop) :
  (forall A m', A = Mat (next m) 0 rows rows cols true -> mval m' A (fun _ _ => f0) ->
     keeps (fun a => fst a = next m) m m' -> next m < next m' -> Q A m') ->
  wp R W (init_zero_amatrix rows cols) m Q.
Proof.
  intros HQ. unfold init_zero_amatrix, init_amatrix. cbn [bind palloc wp].
  set (A := Mat (next m) 0 rows rows cols true).
  apply wp_bind.
  eapply (wp_clear_amatrix R (fun a => W a \/ fst a = next m) A);
    [apply mwf_fresh|apply malloc_fresh|intros a Ha; right; apply (inm_blk A a Ha)|].
  intros m' Hv Hk. cbn [wp]. apply HQ; auto.
  - apply keeps_alloc in Hk. eapply keeps_mono; [|exact Hk]. cbn.
    intros a [Ha|E]; [exact (inm_blk _ _ Ha)|exact E].
  - destruct Hk as [Hk _]. cbn in Hk. lia.
Qed.

Lemma wp_init_identity_amatrix R W rows cols m (Q : mat -> mem K -> Prop) :
  (forall A m', A = Mat (next m) 0 rows rows cols true -> mval m' A idf ->
     keeps (fun a => fst a = next m) m m' -> next m < next m' -> Q A m') ->
  wp R W (init_identity_amatrix rows cols) m Q.
Proof.
  intros HQ. unfold init_identity_amatrix, init_amatrix. cbn [bind palloc wp].
  set (A := Mat (next m) 0 rows rows cols true).
  assert (Hwr : wrok (fun a => W a \/ fst a = next m) (inm A))
    by (intros a Ha; right; apply (inm_blk A a Ha)).
  apply wp_bind.
  eapply (wp_clear_amatrix R (fun a => W a \/ fst a = next m) A);
    [apply mwf_fresh|apply malloc_fresh|exact Hwr|].
  intros m' Hv Hk. apply wp_bind.
  eapply (wp_diag_one R _ A); [apply mwf_fresh|exact Hv|cbn; lia|cbn; lia|exact Hwr|].
  intros m2 Hv2 Hk2. cbn [wp].
  assert (Hk3 : keeps (inm A) (alloc m (rows * cols)) m2) by (eapply keeps_trans; eauto).
  apply HQ; auto.
  - eapply mval_ext; [exact Hv2|]. intros i j Hi Hj; cbv beta. unfold idf. cbn in Hi, Hj.
    bsplit; reflexivity.
  - apply keeps_alloc in Hk3. eapply keeps_mono; [|exact Hk3]. cbn.
    intros a [Ha|E]; [exact (inm_blk _ _ Ha)|exact E].
  - destruct Hk3 as [Hk3 _]. cbn in Hk3. lia.
Qed.

Lemma wp_clone_amatrix R W A f m (Q : mat -> mem K -> Prop) :
  mval m A f -> mblk A < next m -> rdok R W (inm A) ->
  (forall B m', B = Mat (next m) 0 (mrows A) (mrows A) (mcols A) true -> mval m' B f ->
     keeps (fun a => fst a = next m) m m' -> next m < next m' -> Q B m') ->
  wp R W (clone_amatrix A) m Q.
Proof.
  intros HA Hb Hr HQ. unfold clone_amatrix, init_amatrix. cbn [bind palloc wp].
  set (B := Mat (next m) 0 (mrows A) (mrows A) (mcols A) true).
  apply wp_bind.
  eapply (wp_copy_amatrix R (fun a => W a \/ fst a = next m) false A B).
  - apply mwf_fresh.
  - intros i j Hi Hj. rewrite get_alloc_old; [apply HA; assumption|]. cbn. lia.
  - apply malloc_fresh.
  - intros a Ha Hb'. apply inm_blk in Ha, Hb'. cbn in Hb'. lia.
  - intros a Ha. destruct (Hr a Ha); auto.
  - intros a Ha. right. exact (inm_blk _ _ Ha).
  - reflexivity.
  - reflexivity.
  - intros m' Hv Hk. cbn [wp]. apply HQ; auto.
    + apply keeps_alloc in Hk. eapply keeps_mono; [|exact Hk]. cbn.
      intros a [Ha|E]; [exact (inm_blk _ _ Ha)|exact E].
    + destruct Hk as [Hk _]. cbn in Hk. lia.
Qed.

(** resizecopy_amatrix keeps the common part and fills the rest with zeros. *)
Lemma wp_resizecopy_amatrix R W A rows cols f m (Q : mat -> mem K -> Prop) :
  mval m A f -> mown A = true -> mblk A < next m -> (forall o, W (mblk A, o)) ->
  mld A = mrows A ->
  (forall B m', mrows B = rows -> mcols B = cols -> mld B = rows -> mown B = true ->
     (B = A \/ mblk B = next m) ->
     mval m' B (fun i j => if (i <? mrows A) && (j <? mcols A) then f i j else f0) ->
     keeps (fun a => fst a = mblk A \/ fst a = next m) m m' -> Q B m') ->
  wp R W (resizecopy_amatrix A rows cols) m Q.
Proof.
  intros HA Ho Hb HW Hld HQ. unfold resizecopy_amatrix. wstep; [exact Ho|].
  destruct ((rows =? mrows A) && (cols =? mcols A)) eqn:E.
  { apply andb_true_iff in E as [E1%Nat.eqb_eq E2%Nat.eqb_eq]. cbn [wp]. apply HQ; auto; try lia.
    - eapply mval_ext; [exact HA|]. intros i j Hi Hj; cbv beta. bsplit; reflexivity.
    - apply keeps_refl. }
  clear E. cbn [bind palloc wp].
  set (B := Mat (next m) 0 rows rows cols true).
  set (W' := fun a => W a \/ fst a = next m).
  set (rm := Nat.min rows (mrows A)). set (cm := Nat.min cols (mcols A)).
  assert (Hwf : mwf B) by apply mwf_fresh.
  assert (HwB : wrok W' (inm B)) by (intros a Ha; right; exact (inm_blk _ _ Ha)).
  assert (HrA : rdok R W' (inm A)).
  { intros a Ha. right. left. apply inm_blk in Ha. destruct a as [a1 a2]; cbn in Ha; subst. apply HW. }
  assert (HA1 : forall m1, keeps (inm B) (alloc m (rows * cols)) m1 -> mval m1 A f).
  { intros m1 Hk. eapply mval_keeps; [|exact Hk|].
    - intros i j Hi Hj. rewrite get_alloc_old; [apply HA; assumption|]. cbn. lia.
    - intros a Ha Hb'. apply inm_blk in Ha, Hb'. cbn in Hb'. lia. }
  set (g := fun i j => if (i <? mrows A) && (j <? mcols A) then f i j else (f0 : K)).
  set (Inv := fun j m1 => malloc m1 B /\ (forall k l, k < rows -> l < j -> get m1 (ma B k l) = Val (g k l))
        /\ keeps (inm B) (alloc m (rows * cols)) m1).
  set (Inv2 := fun j i m1 => malloc m1 B /\ (forall k l, k < rows -> l < j \/ (l = j /\ k < i) ->
              get m1 (ma B k l) = Val (g k l)) /\ keeps (inm B) (alloc m (rows * cols)) m1).
  assert (Hstep : forall i j m1 v, i < rows -> j < cols -> Inv2 j i m1 -> v = g i j ->
     Inv2 j (S i) (upd m1 (ma B i j) v)).
  { intros i j m1 v Hi Hj [Ha1 [Hv1 Hk1]] ->. split; [|split].
    - apply malloc_upd. exact Ha1.
    - intros k l Hk Hl. rewrite get_upd by (apply Ha1; assumption).
      destruct (addr_eqb_spec (ma B k l) (ma B i j)) as [E|E].
      + apply ma_inj in E as [-> ->]; auto.
      + apply Hv1; [exact Hk|]. destruct Hl as [?|[-> ?]]; [auto|]. right. split; [reflexivity|].
        assert (k <> i) by (intros ->; auto). lia.
    - apply keeps_upd_r; [exact Hk1|]. apply inm_ma; assumption. }
  assert (H12 : forall j m1, Inv j m1 -> Inv2 j 0 m1).
  { intros j m1 [Ha1 [Hv1 Hk1]]. split; [exact Ha1|]. split; [|exact Hk1].
    intros k l Hk [Hl|Hl]; [auto|lia]. }
  assert (H21 : forall j m1, Inv2 j rows m1 -> Inv (S j) m1).
  { intros j m1 [Ha1 [Hv1 Hk1]]. split; [exact Ha1|]. split; [|exact Hk1].
    intros k l Hk Hl. apply Hv1; [exact Hk|]. lia. }
  apply wp_bind. apply (wp_for Inv).
  - split; [apply malloc_fresh|]. split; [intros; lia|apply keeps_refl].
  - intros j m1 Hj H1. apply H12 in H1. apply wp_bind. apply (wp_for (Inv2 j)); [exact H1| |].
    + intros i m2 Hi H2. pose proof (HA1 m2 (proj2 (proj2 H2))) as HA2.
      pose proof (proj1 H2) as Ha2. wstep. eapply wp_mstore; [exact Ha2|cbn; lia|cbn; lia|exact HwB|].
      apply Hstep; auto; try lia. unfold g. bsplit; reflexivity.
    + intros m2 H2. cbn [Nat.add] in H2. apply (wp_for (Inv2 j)); [exact H2| |].
      * intros i m3 Hi H3. pose proof (proj1 H3) as Ha3.
        eapply wp_mstore; [exact Ha3|cbn; lia|cbn; lia|exact HwB|].
        apply Hstep; auto; try lia. unfold g. bsplit; reflexivity.
      * intros m3 H3. apply H21. replace (rm + (rows - rm)) with rows in H3 by lia. exact H3.
  - intros m1 H1. cbn [Nat.add] in H1. apply wp_bind. apply (wp_for Inv); [exact H1| |].
    + intros j m2 Hj H2. apply H12 in H2. apply (wp_for (Inv2 j)); [exact H2| |].
      * intros i m3 Hi H3. pose proof (proj1 H3) as Ha3.
        eapply wp_mstore; [exact Ha3|cbn; lia|cbn; lia|exact HwB|].
        apply Hstep; auto; try lia. unfold g. bsplit; reflexivity.
      * intros m3 H3. apply H21. exact H3.
    + intros m2 [Ha2 [Hv2 Hk2]]. cbn [bind pfree wp].
      pose proof (proj1 Hk2) as Hn. cbn in Hn.
      split; [lia|]. split; [intros o; left; apply HW|].
      apply HQ; auto.
      * intros i j Hi Hj. rewrite get_dealloc. cbn [fst ma].
        destruct (Nat.eqb_spec (mblk B) (mblk A)) as [E|E]; [cbn in E; lia|].
        apply Hv2; cbn in *; lia.
      * apply keeps_alloc in Hk2. split; [cbn; lia|]. intros a Ha. rewrite get_dealloc.
        destruct (Nat.eqb_spec (fst a) (mblk A)) as [E|E]; [tauto|].
        apply (proj2 Hk2). intros [H|H]; [apply inm_blk in H; cbn in H; tauto|tauto].
Qed.

Context (L : ring_laws K).
Add Ring Kring2 : (rl_ring K L).

(** check_ortho_amatrix returns the Frobenius norm of I - A^* A (or I - A A^* ),
    and releases its temporary. *)
Lemma wp_check_ortho_amatrix R W sq (t : bool) A f m (Q : K -> mem K -> Prop) :
  mval m A f -> mblk A < next m -> rdok R W (inm A) ->
  let n := if t then mrows A else mcols A in
  let mid := if t then mcols A else mrows A in
  let D := fun i k => (idf i k - sum mid (fun j => tr (negb t) f i j * tr t f j k))%F in
  (forall m', keeps (fun _ => False) m m' ->
     Q (sq (sum n (fun j => sum n (fun i => fconj (D i j) * D i j)%F))) m') ->
  wp R W (check_ortho_amatrix sq t A) m Q.
Proof.
  intros HA Hb Hr n mid D HQ.
  assert (main : forall (ta tb : bool), ta = negb t -> tb = t ->
     wp R W (a2 <- init_identity_amatrix n n ;;
             addmul_amatrix (- f1)%F ta A tb A a2 ;;;
             nn <- normfrob_amatrix sq a2 ;;
             uninit_amatrix a2 ;;; Ret nn) m Q).
  { intros ta tb Eta Etb.
    unfold init_identity_amatrix, init_amatrix. cbn [bind palloc wp].
    set (B := Mat (next m) 0 n n n true).
    set (W' := fun a => W a \/ fst a = next m).
    assert (HwB : wrok W' (inm B)) by (intros a Ha; right; exact (inm_blk _ _ Ha)).
    assert (HrA : rdok R W' (inm A)) by (intros a Ha; destruct (Hr a Ha); unfold W'; auto).
    assert (HdAB : disj (inm A) (inm B)).
    { intros a Ha Hb'. apply inm_blk in Ha, Hb'. cbn in Hb'. lia. }
    apply wp_bind. apply wp_bind.
    eapply (wp_clear_amatrix R W' B); [apply mwf_fresh|apply malloc_fresh|exact HwB|].
    intros m1 Hv1 Hk1. apply wp_bind.
    eapply (wp_diag_one R W' B); [apply mwf_fresh|exact Hv1|cbn; lia|cbn; lia|exact HwB|].
    intros m2 Hv2 Hk2. cbn [wp].
    assert (Hk12 : keeps (inm B) (alloc m (n * n)) m2) by (eapply keeps_trans; eauto).
    assert (HA2 : mval m2 A f).
    { eapply mval_keeps; [|exact Hk12|exact HdAB].
      intros i j Hi Hj. rewrite get_alloc_old; [apply HA; assumption|]. cbn. lia. }
    apply wp_bind.
    eapply (wp_addmul_amatrix L R W' (- f1)%F ta A tb A B); eauto.
    - apply mwf_fresh.
    - subst ta. cbn. subst n. destruct t; cbn; lia.
    - subst tb. cbn. subst n. destruct t; cbn; lia.
    - subst ta tb. destruct t; reflexivity.
    - intros m3 Hv3 Hk3. apply wp_bind.
      assert (Hk13 : keeps (inm B) (alloc m (n * n)) m3) by (eapply keeps_trans; eauto).
      assert (HD : mval m3 B D).
      { eapply mval_ext; [exact Hv3|]. intros i k Hi Hk; cbv beta. cbn in Hi, Hk.
        subst ta tb. unfold D, idf, mid, n in *. destruct t; cbn [negb tr] in *; bsplit; ring. }
      eapply (wp_normfrob_amatrix L R W' sq B); [exact HD|apply rdok_w; exact HwB|].
      unfold uninit_amatrix. cbn [mown B bind pfree wp].
      pose proof (proj1 Hk13) as Hn. cbn in Hn. cbn [mblk B].
      split; [lia|]. split; [intros o; right; reflexivity|].
      cbn [mrows mcols B]. apply HQ. apply keeps_dealloc; [lia|].
      apply keeps_alloc in Hk13. eapply keeps_mono; [|exact Hk13]. cbn.
      intros a [Ha|Ha]; right; [exact (inm_blk _ _ Ha)|exact Ha]. }
  unfold check_ortho_amatrix. destruct t; cbn [negb] in *; apply main; reflexivity.
Qed.

(** bidiagmul_amatrix multiplies by alpha times the lower bidiagonal matrix with
    diagonal d and sub-diagonal l from the right, or by its adjoint from the left. *)
Lemma sum_two n (h : nat -> K) a b : a < n -> b < n -> a <> b ->
  (forall k, k < n -> k <> a -> k <> b -> h k = f0) -> sum n h = (h a + h b)%F.
Proof.
  revert a b. assert (wlog : forall a b, a < b < n ->
    (forall k, k < n -> k <> a -> k <> b -> h k = f0) -> sum n h = (h a + h b)%F).
  { intros a b Hab Hz. replace n with (S a + (n - S a)) by lia.
    rewrite (sum_app L (S a)).
    rewrite (sum_single L (S a) a) by (try lia; intros; apply Hz; lia).
    rewrite (sum_single L (n - S a) (b - S a)).
    - replace (S a + (b - S a)) with b by lia. reflexivity.
    - lia.
    - intros i Hi Hne. apply Hz; lia. }
  intros a b Ha Hb Hne Hz. destruct (Nat.lt_ge_cases a b).
  - apply wlog; auto.
  - rewrite (wlog b a); [ring|lia|]. intros k H1 H2 H3. apply Hz; auto.
Qed.

Lemma wp_bidiagmul_amatrix R W alpha (t : bool) A d l f fd fl m (Q : unit -> mem K -> Prop) :
  mwf A -> mval m A f -> vval m d fd -> vval m l fl ->
  vdim d = (if t then mrows A else mcols A) -> vdim l + 1 = vdim d ->
  disj (inv d) (inm A) -> disj (inv l) (inm A) ->
  wrok W (inm A) -> rdok R W (inv d) -> rdok R W (inv l) ->
  (forall m', mval m' A (fun i j =>
      if t then sum (mrows A) (fun k => fconj (alpha * bidiag fd fl k i) * f k j)%F
      else sum (mcols A) (fun k => f i k * (alpha * bidiag fd fl k j))%F) ->
     keeps (inm A) m m' -> Q tt m') ->
  wp R W (bidiagmul_amatrix alpha t A d l) m Q.
Proof.
  intros Hw HA Hd Hl Hdd Hld Hdj Hlj HwA Hrd Hrl HQ. unfold bidiagmul_amatrix. destruct t.
  - wstep. wstep.
    destruct ((mrows A <? 1) || (mcols A <? 1)) eqn:E.
    { cbn [wp]. apply HQ; [|apply keeps_refl]. intros i j Hi Hj. exfalso.
      apply orb_true_iff in E as [E%Nat.ltb_lt|E%Nat.ltb_lt]; lia. }
    clear E.
    set (g := fun i j => (fconj (alpha * fd i) * f i j + fconj (alpha * fl i) * f (i + 1)%nat j)%F).
    apply wp_bind.
    apply (wp_for (fun j m1 => mval m1 A (fun k i => if k <? j then g k i else f k i)
              /\ keeps (inm A) m m1)).
    + split; [|apply keeps_refl]. eapply mval_ext; [exact HA|]. intros; cbv beta; bsplit; reflexivity.
    + intros j m1 Hj [Hv1 Hk1].
      assert (vval m1 d fd) by (eapply vval_keeps; eauto).
      assert (vval m1 l fl) by (eapply vval_keeps; eauto).
      wstep. wstep. cbv zeta.
      eapply wp_mrow with (A := A) (i := j) (g := g j) (lo := 0) (n := mcols A); eauto; try lia.
      * intros i m2 Hi Hv2 Hk2. wstep. wstep. wstep. wrote_tac.
      * intros m2 Hv2 Hk2. split; [|eapply keeps_trans; eauto]. eapply mval_ext; [exact Hv2|].
        intros k i Hk Hi; cbv beta. bsplit; subst; reflexivity.
    + intros m1 [Hv1 Hk1]. cbn [Nat.add] in Hv1.
      assert (vval m1 d fd) by (eapply vval_keeps; eauto).
      wstep.
      cbv zeta.
      assert (Hr0 : 0 < mrows A) by lia.
      eapply wp_mrow with (A := A) (i := mrows A - 1)
        (g := fun i => (f (mrows A - 1)%nat i * fconj (alpha * fd (mrows A - 1)%nat))%F)
        (lo := 0) (n := mcols A); eauto; try lia.
      * intros i m2 Hi Hv2 Hk2. wstep. wstep. wrote_tac.
      * intros m2 Hv2 Hk2. apply HQ; [|eapply keeps_trans; eauto]. eapply mval_ext; [exact Hv2|].
        intros i j Hi Hj; cbv beta. unfold bidiag.
        destruct (Nat.eq_dec i (mrows A - 1)) as [Ei|Ei].
        -- rewrite (sum_single L (mrows A) i); [|lia|].
           ++ bsplit. subst. ring.
           ++ intros k Hk Hne. bsplit. replace (alpha * f0)%F with (f0 : K) by ring.
              rewrite (fconj_0 L). ring.
        -- rewrite (sum_two (mrows A) _ i (i + 1)); [|lia|lia|lia|].
           ++ bsplit. unfold g. reflexivity.
           ++ intros k Hk Hne Hne2. bsplit. replace (alpha * f0)%F with (f0 : K) by ring.
              rewrite (fconj_0 L). ring.
  - wstep. wstep.
    destruct ((mrows A <? 1) || (mcols A <? 1)) eqn:E.
    { cbn [wp]. apply HQ; [|apply keeps_refl]. intros i j Hi Hj. exfalso.
      apply orb_true_iff in E as [E%Nat.ltb_lt|E%Nat.ltb_lt]; lia. }
    clear E.
    set (g := fun i j => (alpha * fd j * f i j + alpha * fl j * f i (j + 1)%nat)%F).
    apply wp_bind.
    apply (wp_for (fun j m1 => mval m1 A (fun i k => if k <? j then g i k else f i k)
              /\ keeps (inm A) m m1)).
    + split; [|apply keeps_refl]. eapply mval_ext; [exact HA|]. intros; cbv beta; bsplit; reflexivity.
    + intros j m1 Hj [Hv1 Hk1].
      assert (vval m1 d fd) by (eapply vval_keeps; eauto).
      assert (vval m1 l fl) by (eapply vval_keeps; eauto).
      wstep. wstep. cbv zeta.
      eapply wp_mcol with (A := A) (j := j) (g := fun i => g i j) (lo := 0) (n := mrows A); eauto; try lia.
      * intros i m2 Hi Hv2 Hk2. wstep. wstep. wstep. wrote_tac.
      * intros m2 Hv2 Hk2. split; [|eapply keeps_trans; eauto]. eapply mval_ext; [exact Hv2|].
        intros k i Hk Hi; cbv beta. bsplit; subst; reflexivity.
    + intros m1 [Hv1 Hk1]. cbn [Nat.add] in Hv1.
      assert (vval m1 d fd) by (eapply vval_keeps; eauto).
      wstep. cbv zeta.
      assert (Hr0 : 0 < mcols A) by lia.
      eapply wp_mcol with (A := A) (j := mcols A - 1)
        (g := fun i => (f i (mcols A - 1)%nat * (alpha * fd (mcols A - 1)%nat))%F)
        (lo := 0) (n := mrows A); eauto; try lia.
      * intros i m2 Hi Hv2 Hk2. wstep. wstep. wrote_tac.
      * intros m2 Hv2 Hk2. apply HQ; [|eapply keeps_trans; eauto]. eapply mval_ext; [exact Hv2|].
        intros i j Hi Hj; cbv beta. unfold bidiag.
        destruct (Nat.eq_dec j (mcols A - 1)) as [Ei|Ei].
        -- rewrite (sum_single L (mcols A) j); [|lia|].
           ++ bsplit. subst. ring.
           ++ intros k Hk Hne. bsplit. ring.
        -- rewrite (sum_two (mcols A) _ j (j + 1)); [|lia|lia|lia|].
           ++ bsplit. unfold g. ring.
           ++ intros k Hk Hne Hne2. bsplit. ring.
Qed.
End P2.
