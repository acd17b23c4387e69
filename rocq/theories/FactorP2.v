(** * Proofs about triangular evaluation, diagonal matrices and copies *)
From Coq Require Import Arith Lia List Bool Ring.
From Verif Require Import Fld Prog View Spec Loop Line Factor FactorSpec FactorP.

Section Eval.
Context {K : fops} (L : ring_laws K).
Add Ring Kring3 : (rl_ring K L).
Implicit Types (m : mem K) (R W : addr -> Prop) (A : mat) (x : vec) (P : mem K -> Prop).

Lemma sum_tail i k (h : nat -> K) :
  i <= k -> (sum k h = sum i h + sum (k - i) (fun j => h (i + j)%nat))%F.
Proof. intros H. rewrite <- (sum_app L). f_equal. lia. Qed.

Lemma wp_eval_sum R W P la lx (M : nat -> nat -> K) (h : nat -> K) i lo cnt v m
  (Q : K -> mem K -> Prop) :
  P m -> reads R W P (fun i' j => i' = i /\ lo <= j < lo + cnt) la M ->
  (forall j, lo <= j < lo + cnt -> wp R W (lx j) m (fun a m' => a = h j /\ m' = m)) ->
  Q (v + sum cnt (fun j => M i (lo + j)%nat * h (lo + j)%nat))%F m ->
  wp R W (eval_sum la lx i lo cnt v) m Q.
Proof.
  intros HP Hr Hl HQ. unfold eval_sum.
  apply (wp_fold R W lo cnt (fun k => v + sum (k - lo) (fun j => M i (lo + j)%nat * h (lo + j)%nat))%F).
  - rewrite Nat.sub_diag. cbn. ring.
  - intros j Hj. apply wp_bind. eapply (wp_reads _ Hr); [auto|exact HP|].
    apply wp_bind. eapply wp_conseq; [apply Hl; exact Hj|]. cbv beta. intros a m' [-> ->].
    split; [|reflexivity]. replace (S j - lo) with (S (j - lo)) by lia. cbn [sum].
    replace (lo + (j - lo)) with j by lia. ring.
  - replace (lo + cnt - lo) with cnt by lia. exact HQ.
Qed.

Section Line.
Variables (R W : addr -> Prop) (P : mem K -> Prop) (c : nat -> addr) (N : nat).
Hypothesis Hj : linj c N.
Hypothesis HW : forall i, i < N -> W (c i).
Hypothesis HPk : forall m1 m2, P m1 -> keeps (inl c N) m1 m2 -> P m2.

Lemma wp_ld m f i (Q : K -> mem K -> Prop) :
  lval m c N f -> i < N -> Q (f i) m -> wp R W (pload (c i)) m Q.
Proof. intros H Hi HQ. eapply wp_pload; [apply H; exact Hi|right; apply HW; exact Hi|exact HQ]. Qed.

Lemma wp_st m f i v v' (Q : unit -> mem K -> Prop) :
  lval m c N f -> i < N -> v = v' -> (forall m', wrote m (c i) v m' -> Q tt m') ->
  wp R W (pstore (c i) v') m Q.
Proof.
  intros H Hi E HQ. apply wp_pstore; [rewrite H by exact Hi; discriminate|apply HW; exact Hi|].
  apply HQ. apply wrote_upd; [rewrite H by exact Hi; discriminate|exact E].
Qed.

(** The diagonal contribution. *)
Lemma wp_eval_diag (aunit : bool) la (T : nat -> nat -> K) i h m (Q : K -> mem K -> Prop) :
  lval m c N h -> P m -> i < N ->
  reads R W P (fun i' j => i' = j /\ j = i /\ aunit = false) la T ->
  (aunit = true -> T i i = f1) ->
  Q (T i i * h i)%F m ->
  wp R W (eval_diag aunit la (fun j => pload (c j)) i) m Q.
Proof.
  intros Hl HP Hi Hr Hu HQ. unfold eval_diag. destruct aunit.
  - eapply wp_ld; [exact Hl|exact Hi|]. rewrite Hu in HQ by reflexivity.
    replace (h i) with (f1 * h i)%F by ring. exact HQ.
  - apply wp_bind. eapply (wp_reads _ Hr); [auto|exact HP|]. apply wp_bind.
    eapply wp_ld; [exact Hl|exact Hi|]. cbn. exact HQ.
Qed.

Lemma wp_eval_upper (aunit : bool) n nr nc la (T : nat -> nat -> K) f m
  (Q : unit -> mem K -> Prop) :
  lval m c N f -> P m -> n = Nat.min nr nc -> nr <= N -> nc <= N ->
  reads R W P (fun i j => i < n /\ j < nc /\ (i = j /\ aunit = false \/ i < j)) la T ->
  (forall i j, j < i -> T i j = f0) -> (aunit = true -> forall i, i < n -> T i i = f1) ->
  (forall m', lval m' c N (fun i => if i <? nr then mvec nc T f i else f i) ->
     keeps (inl c N) m m' -> Q tt m') ->
  wp R W (eval_upper aunit n nr nc la (fun i => pload (c i)) (fun i v => pstore (c i) v)) m Q.
Proof.
  intros Hl HP Hn Hnr Hnc Hr HT Hu HQ. unfold eval_upper.
  set (g1 := fun i => (T i i * f i + sum (n - (i + 1)) (fun j => T i (i + 1 + j)%nat * f (i + 1 + j)%nat))%F).
  set (g2 := fun i => (g1 i + sum (nc - n) (fun j => T i (n + j)%nat * f (n + j)%nat))%F).
  assert (E2 : forall i, i < n -> g2 i = mvec nc T f i).
  { intros i Hi. unfold g2, g1, mvec.
    rewrite (sum_tail n nc) by lia. f_equal. rewrite (sum_tail (i + 1) n) by lia. f_equal.
    rewrite Nat.add_1_r. cbn [sum]. rewrite (sum_0 L i); [ring|].
    intros j Hj'. rewrite HT by exact Hj'. ring. }
  apply wp_bind.
  apply (wp_lup R W c N 0 n f g1); [exact Hj|exact Hl|right; lia| |].
  { intros i m1 Hi Hl1 Hk1. assert (HP1 : P m1) by (exact (HPk m m1 HP Hk1)).
    apply wp_bind. eapply (wp_eval_diag aunit la T i); [exact Hl1|exact HP1|lia| | |].
    { eapply reads_imp; [exact Hr|]. cbv beta. intros i' j [-> [-> E]]. split; [|reflexivity].
      split; [lia|]. split; [lia|]. auto. }
    { intros E. apply Hu; [exact E|lia]. }
    apply wp_bind. eapply (wp_eval_sum R W P la _ T f); [exact HP1| | |].
    { eapply reads_imp; [exact Hr|]. cbv beta. intros i' j [-> Hij]. split; [|reflexivity].
      split; [lia|]. split; [lia|]. right. lia. }
    { intros j Hjr. eapply wp_ld; [exact Hl1|lia|]. split; [|reflexivity]. bsplit; reflexivity. }
    eapply wp_st; [exact Hl1|lia| |intros m' Hm'; exact Hm'].
    unfold g1. bsplit; reflexivity. }
  intros m1 Hl1 Hk1. apply wp_bind.
  apply (wp_conseq _ R W m1 (fun _ m2 => lval m2 c N (fun k => if k <? n then g2 k else f k)
                                 /\ keeps (inl c N) m1 m2)).
  { destruct (Nat.ltb_spec n nc) as [Hc|Hc].
    - apply (wp_lup R W c N 0 n (fun k => if k <? n then g1 k else f k) g2);
        [exact Hj| |right; lia| |].
      { eapply lval_ext; [exact Hl1|]. intros k Hk; cbv beta. bsplit; reflexivity. }
      + intros i m2 Hi Hl2 Hk2.
        assert (HP2 : P m2) by (exact (HPk m1 m2 (HPk m m1 HP Hk1) Hk2)).
        apply wp_bind. eapply wp_ld; [exact Hl2|lia|]. cbv beta.
        apply wp_bind. eapply (wp_eval_sum R W P la _ T f); [exact HP2| | |].
        { eapply reads_imp; [exact Hr|]. cbv beta. intros i' j [-> Hij]. split; [|reflexivity].
          split; [lia|]. split; [lia|]. right. lia. }
        { intros j Hjr. eapply wp_ld; [exact Hl2|lia|]. split; [|reflexivity]. bsplit; reflexivity. }
        eapply wp_st; [exact Hl2|lia| |intros m' Hm'; exact Hm'].
        unfold g2. bsplit; reflexivity.
      + intros m2 Hl2 Hk2. split; [|exact Hk2]. eapply lval_ext; [exact Hl2|].
        intros k Hk; cbv beta. bsplit; reflexivity.
    - cbn [wp]. split; [|apply keeps_refl]. eapply lval_ext; [exact Hl1|].
      intros k Hk; cbv beta. unfold g2. replace (nc - n) with 0 by lia. cbn [sum].
      bsplit; try reflexivity. ring. }
  cbv beta. intros _ m2 [Hl2 Hk2].
  destruct (Nat.ltb_spec n nr) as [Hc|Hc].
  - apply (wp_lup R W c N n (nr - n) (fun k => if k <? n then g2 k else f k) (fun _ => f0));
      [exact Hj|exact Hl2|right; lia| |].
    + intros i m3 Hi Hl3 Hk3. eapply wp_st; [exact Hl3|lia|reflexivity|intros m' Hm'; exact Hm'].
    + intros m3 Hl3 Hk3. apply HQ.
      * eapply lval_ext; [exact Hl3|]. intros k Hk; cbv beta.
        bsplit; try reflexivity; try (apply E2; assumption).
        symmetry. unfold mvec. apply (sum_0 L). intros j Hj'. rewrite HT by lia. ring.
      * eapply keeps_trans; [exact Hk1|]. eapply keeps_trans; [exact Hk2|exact Hk3].
  - cbn [wp]. apply HQ.
    + eapply lval_ext; [exact Hl2|]. intros k Hk; cbv beta. bsplit; try reflexivity.
      apply E2; assumption.
    + eapply keeps_trans; [exact Hk1|exact Hk2].
Qed.

Lemma wp_eval_lower (aunit : bool) n nr nc cnt la (T : nat -> nat -> K) f m
  (Q : unit -> mem K -> Prop) :
  lval m c N f -> P m -> n = Nat.min nr nc -> nr <= N -> nc <= N -> (n < nr -> cnt = n) ->
  reads R W P (fun i j => i < nr /\ j < nc /\ (i = j /\ aunit = false \/ j < i)) la T ->
  (forall i j, i < j -> T i j = f0) -> (aunit = true -> forall i, i < n -> T i i = f1) ->
  (forall m', lval m' c N (fun i => if i <? nr then mvec nc T f i else f i) ->
     keeps (inl c N) m m' -> Q tt m') ->
  wp R W (eval_lower aunit n nr cnt la (fun i => pload (c i)) (fun i v => pstore (c i) v)) m Q.
Proof.
  intros Hl HP Hn Hnr Hnc Hcnt Hr HT Hu HQ. unfold eval_lower.
  set (g1 := fun i => (T i i * f i + sum i (fun j => T i j * f j))%F).
  set (g2 := fun i => sum n (fun j => T i j * f j)%F).
  assert (E1 : forall i, i < n -> g1 i = mvec nc T f i).
  { intros i Hi. unfold g1, mvec. rewrite (sum_tail (i + 1) nc) by lia.
    rewrite Nat.add_1_r. cbn [sum]. rewrite (sum_0 L (nc - S i)); [ring|].
    intros j Hj'. rewrite HT by lia. ring. }
  apply wp_bind.
  apply (wp_conseq _ R W m (fun _ m2 => lval m2 c N (fun k => if (n <=? k) && (k <? nr) then g2 k else f k)
                                 /\ keeps (inl c N) m m2)).
  { destruct (Nat.ltb_spec n nr) as [Hc|Hc].
    - rewrite (Hcnt Hc).
      apply (wp_lup R W c N n (nr - n) f g2); [exact Hj|exact Hl|right; lia| |].
      + intros i m2 Hi Hl2 Hk2. assert (HP2 : P m2) by (exact (HPk m m2 HP Hk2)).
        apply wp_bind. eapply (wp_eval_sum R W P la _ T f); [exact HP2| | |].
        { eapply reads_imp; [exact Hr|]. cbv beta. intros i' j [-> Hij]. split; [|reflexivity].
          split; [lia|]. split; [lia|]. right. lia. }
        { intros j Hjr. eapply wp_ld; [exact Hl2|lia|]. split; [|reflexivity]. bsplit; reflexivity. }
        eapply wp_st; [exact Hl2|lia| |intros m' Hm'; exact Hm']. unfold g2. cbn [Nat.add]. ring.
      + intros m2 Hl2 Hk2. split; [|exact Hk2]. eapply lval_ext; [exact Hl2|].
        intros k Hk; cbv beta. bsplit; reflexivity.
    - cbn [wp]. split; [|apply keeps_refl]. eapply lval_ext; [exact Hl|].
      intros k Hk; cbv beta. bsplit; reflexivity. }
  cbv beta. intros _ m1 [Hl1 Hk1].
  apply (wp_ldown R W c N n (fun k => if (n <=? k) && (k <? nr) then g2 k else f k) g1);
    [exact Hj|exact Hl1|lia| |].
  { intros i m2 Hi Hl2 Hk2.
    assert (HP2 : P m2) by (exact (HPk m1 m2 (HPk m m1 HP Hk1) Hk2)).
    apply wp_bind. eapply (wp_eval_diag aunit la T i); [exact Hl2|exact HP2|lia| | |].
    { eapply reads_imp; [exact Hr|]. cbv beta. intros i' j [-> [-> E]]. split; [|reflexivity].
      split; [lia|]. split; [lia|]. auto. }
    { intros E. apply Hu; [exact E|lia]. }
    apply wp_bind. eapply (wp_eval_sum R W P la _ T f); [exact HP2| | |].
    { eapply reads_imp; [exact Hr|]. cbv beta. intros i' j [-> Hij]. split; [|reflexivity].
      split; [lia|]. split; [lia|]. right. lia. }
    { intros j Hjr. eapply wp_ld; [exact Hl2|lia|]. split; [|reflexivity]. bsplit; reflexivity. }
    eapply wp_st; [exact Hl2|lia| |intros m' Hm'; exact Hm'].
    unfold g1. cbn [Nat.add]. bsplit; reflexivity. }
  intros m2 Hl2 Hk2. apply HQ.
  - eapply lval_ext; [exact Hl2|]. intros k Hk; cbv beta. bsplit; try reflexivity.
    + apply E1; assumption.
    + unfold g2, mvec. replace nc with n by lia. reflexivity.
  - eapply keeps_trans; [exact Hk1|exact Hk2].
Qed.
End Line.
End Eval.

(** ** All rows or columns of a matrix *)
Section Lines.
Context {K : fops}.
Implicit Types (m : mem K) (R W : addr -> Prop) (A : mat) (P : mem K -> Prop).

Definition lc (t : bool) (X : mat) (k i : nat) : addr := if t then ma X k i else ma X i k.

Lemma wp_mlines R W P (t : bool) X body (F : (nat -> K) -> nat -> K) g m
  (Q : unit -> mem K -> Prop) :
  mwf X -> mval m X g -> P m -> (forall m1 m2, P m1 -> keeps (inm X) m1 m2 -> P m2) ->
  (forall k m1 (Q1 : unit -> mem K -> Prop), k < nln t X ->
     lval m1 (lc t X k) (lnn t X) (ln t g k) -> P m1 ->
     (forall m2, lval m2 (lc t X k) (lnn t X) (F (ln t g k)) ->
        keeps (inl (lc t X k) (lnn t X)) m1 m2 -> Q1 tt m2) ->
     wp R W (body k) m1 Q1) ->
  (forall m', mval m' X (fun i j => if t then F (ln t g i) j else F (ln t g j) i) ->
     keeps (inm X) m m' -> Q tt m') ->
  wp R W (for_ 0 (nln t X) body) m Q.
Proof.
  intros Hwf Hg HP HPk Hb HQ.
  apply (wp_for (fun k m1 => mval m1 X (fun i j =>
     if t then (if i <? k then F (ln t g i) j else g i j)
     else (if j <? k then F (ln t g j) i else g i j)) /\ keeps (inm X) m m1)).
  - split; [|apply keeps_refl]. eapply mval_ext; [exact Hg|]. intros i j _ _; cbv beta.
    destruct t; bsplit; reflexivity.
  - intros k m1 Hk [Hv Hk1]. apply Hb; [lia| |exact (HPk m m1 HP Hk1)|].
    + intros i Hi. unfold lc, lnn, nln, ln in *. destruct t.
      * rewrite (Hv k i) by lia. bsplit; reflexivity.
      * rewrite (Hv i k) by lia. bsplit; reflexivity.
    + intros m2 Hl Hk2. unfold lc, lnn, nln in *. destruct t.
      * split.
        -- eapply mval_ext; [eapply (mval_row m1 m2 X k); [exact Hwf|lia|exact Hv|exact Hl|exact Hk2]|].
           intros i j Hi Hj; cbv beta. bsplit; subst; reflexivity.
        -- eapply keeps_trans; [exact Hk1|]. eapply keeps_row; [|exact Hk2]. lia.
      * split.
        -- eapply mval_ext; [eapply (mval_col m1 m2 X k); [exact Hwf|lia|exact Hv|exact Hl|exact Hk2]|].
           intros i j Hi Hj; cbv beta. bsplit; subst; reflexivity.
        -- eapply keeps_trans; [exact Hk1|]. eapply keeps_col; [|exact Hk2]. lia.
  - intros m1 [Hv Hk]. apply HQ; [|exact Hk]. eapply mval_ext; [exact Hv|].
    intros i j Hi Hj; cbv beta. unfold nln. destruct t; bsplit; reflexivity.
Qed.

Lemma linj_lc (t : bool) X k : mwf X -> k < nln t X -> linj (lc t X k) (lnn t X).
Proof.
  intros Hw Hk. unfold lc, nln, lnn in *. destruct t; [apply linj_row|apply linj_col]; assumption.
Qed.
Lemma lc_in (t : bool) X k i : k < nln t X -> i < lnn t X -> inm X (lc t X k i).
Proof. unfold lc, nln, lnn. destruct t; intros; apply inm_ma; assumption. Qed.
End Lines.

Section Eval2.
Context {K : fops} (L : ring_laws K).
Implicit Types (m : mem K) (R W : addr -> Prop) (A : mat) (x : vec) (P : mem K -> Prop).

Lemma RT_unit (lower aunit t : bool) (f : nat -> nat -> K) i :
  aunit = true -> tr t (tripart lower aunit f) i i = f1.
Proof.
  intros ->. destruct t; cbn; unfold tripart; rewrite Nat.eqb_refl;
    [apply (fconj_1 L)|reflexivity].
Qed.

Lemma RT_zero (lower aunit t : bool) (f : nat -> nat -> K) i j :
  (if xorb lower t then i < j else j < i) -> tr t (tripart lower aunit f) i j = f0.
Proof.
  intros H. destruct lower, t; cbn in H |- *; unfold tripart; bsplit;
    try reflexivity; apply (fconj_0 L).
Qed.

Definition oprows (t : bool) A := if t then mcols A else mrows A.
Definition opcols (t : bool) A := if t then mrows A else mcols A.

Lemma wp_triangulareval_amatrix_avector R W (lower aunit t : bool) A x f g m
  (Q : unit -> mem K -> Prop) :
  pval m A (intri lower aunit) f -> vval m x g -> disj (inp A (intri lower aunit)) (inv x) ->
  rdok R W (inp A (intri lower aunit)) -> wrok W (inv x) ->
  mrows A <= vdim x -> mcols A <= vdim x ->
  (forall m',
     vval m' x (fun i => if i <? oprows t A then mvec (opcols t A) (tr t (tripart lower aunit f)) g i
                         else g i) -> keeps (inv x) m m' -> Q tt m') ->
  wp R W (triangulareval_amatrix_avector lower aunit t A x) m Q.
Proof.
  intros HA Hx Hdj Hr Hw H1 H2 HQ.
  assert (HPk : forall m1 m2, pval m1 A (intri lower aunit) f -> keeps (inl (va x) (vdim x)) m1 m2 -> pval m2 A (intri lower aunit) f).
  { intros m1 m2 H Hk. eapply pval_keeps; [exact H|exact Hk|]. exact Hdj. }
  assert (HW : forall i, i < vdim x -> W (va x i)).
  { intros i Hi. apply Hw. exists i. auto. }
  pose proof (fun E i (_ : i < Nat.min (mrows A) (mcols A)) => RT_unit lower aunit t f i E) as TU.
  pose proof (RT_zero lower aunit t f) as TZ. pose proof (T_entry lower aunit t f) as TE.
  destruct lower; unfold triangulareval_amatrix_avector.
  - unfold lowereval_amatrix_avector. wstep. wstep. destruct t.
    + eapply (wp_eval_upper L R W (fun m => pval m A (intri true aunit) f) (va x) (vdim x));
        [apply linj_vec|exact HW|exact HPk|exact Hx|exact HA|lia|lia|lia|
        |intros i j Hij; apply TZ; exact Hij|exact TU|exact HQ].
      eapply reads_imp; [apply reads_tc; exact Hr|]. cbv beta. intros i j [Hi [Hj H]].
      split; [tri_in|]. symmetry. apply TE. exact H.
    + eapply wp_eval_lower with (P := fun m => pval m A (intri true aunit) f) (c := va x) (N := vdim x) (nc := mcols A);
        [exact L|apply linj_vec|exact HW|exact HPk|exact Hx|exact HA|lia|lia|lia|lia|
        |intros i j Hij; apply TZ; exact Hij|exact TU|exact HQ].
      eapply reads_imp; [apply reads_n; exact Hr|]. cbv beta. intros i j [Hi [Hj H]].
      split; [tri_in|]. symmetry. apply TE. exact H.
  - unfold uppereval_amatrix_avector. wstep. wstep. destruct t.
    + eapply wp_eval_lower with (P := fun m => pval m A (intri false aunit) f) (c := va x) (N := vdim x) (nc := mrows A);
        [exact L|apply linj_vec|exact HW|exact HPk|exact Hx|exact HA|lia|lia|lia|lia|
        |intros i j Hij; apply TZ; exact Hij|exact TU|exact HQ].
      eapply reads_imp; [apply reads_tc; exact Hr|]. cbv beta. intros i j [Hi [Hj H]].
      split; [tri_in|]. symmetry. apply TE. exact H.
    + eapply (wp_eval_upper L R W (fun m => pval m A (intri false aunit) f) (va x) (vdim x));
        [apply linj_vec|exact HW|exact HPk|exact Hx|exact HA|lia|lia|lia|
        |intros i j Hij; apply TZ; exact Hij|exact TU|exact HQ].
      eapply reads_imp; [apply reads_n; exact Hr|]. cbv beta. intros i j [Hi [Hj H]].
      split; [tri_in|]. symmetry. apply TE. exact H.
Qed.

Lemma wp_triangulareval_amatrix R W (lower aunit t : bool) A (xt : bool) X f g m
  (Q : unit -> mem K -> Prop) :
  mwf X -> pval m A (intri lower aunit) f -> mval m X g -> disj (inp A (intri lower aunit)) (inm X) ->
  rdok R W (inp A (intri lower aunit)) -> wrok W (inm X) ->
  mrows A <= lnn xt X -> mcols A <= lnn xt X ->
  (forall (g' : nat -> nat -> K) m',
     (forall i k, i < oprows t A -> k < nln xt X ->
        tr xt g' i k = mmul (opcols t A) (tr t (tripart lower aunit f)) (tr xt g) i k) ->
     (forall i k, oprows t A <= i -> i < lnn xt X -> k < nln xt X ->
        tr xt g' i k = tr xt g i k) ->
     mval m' X g' -> keeps (inm X) m m' -> Q tt m') ->
  wp R W (triangulareval_amatrix lower aunit t A xt X) m Q.
Proof.
  intros Hwf HA Hx Hdj Hr Hw H1 H2 HQ.
  assert (HPk : forall m1 m2, pval m1 A (intri lower aunit) f -> keeps (inm X) m1 m2 -> pval m2 A (intri lower aunit) f).
  { intros m1 m2 H Hk. eapply pval_keeps; eassumption. }
  assert (HPl : forall k, k < nln xt X ->
     forall m1 m2, pval m1 A (intri lower aunit) f -> keeps (inl (lc xt X k) (lnn xt X)) m1 m2 -> pval m2 A (intri lower aunit) f).
  { intros k Hk m1 m2 H Hkp. eapply HPk; [exact H|]. eapply keeps_mono; [|exact Hkp].
    intros a [i [Hi ->]]. apply lc_in; assumption. }
  assert (HW : forall k, k < nln xt X -> forall i, i < lnn xt X -> W (lc xt X k i)).
  { intros k Hk i Hi. apply Hw. apply lc_in; assumption. }
  pose proof (RT_unit lower aunit t f) as TU.
  pose proof (RT_zero lower aunit t f) as TZ. pose proof (T_entry lower aunit t f) as TE.
  remember (tr t (tripart lower aunit f)) as T eqn:ET.
  assert (CU : aunit = true -> forall i, i < Nat.min (mrows A) (mcols A) -> cj xt T i i = f1).
  { intros E i _. unfold cj. rewrite TU by exact E. destruct xt; [apply (fconj_1 L)|reflexivity]. }
  assert (CZ : forall i j, (if xorb lower t then i < j else j < i) -> cj xt T i j = f0).
  { intros i j H. unfold cj. rewrite TZ by exact H. destruct xt; [apply (fconj_0 L)|reflexivity]. }
  assert (CE : forall i j, i = j /\ aunit = false \/ (if xorb lower t then j < i else i < j) ->
      cj xt T i j = cj xt (tr t f) i j).
  { intros i j H. unfold cj. rewrite TE by exact H. reflexivity. }
  assert (CC : forall a : K, fconj (fconj a) = a) by apply (rl_conj_conj K L).
  set (F := fun (h : nat -> K) i => if i <? oprows t A then mvec (opcols t A) (cj xt T) h i else h i).
  assert (HQ' : forall m', mval m' X (fun i j => if xt then F (ln xt g i) j else F (ln xt g j) i) ->
     keeps (inm X) m m' -> Q tt m').
  { intros m' Hm Hk. eapply HQ; [| |exact Hm|exact Hk].
    - intros i k Hi Hk'. unfold tr at 1. unfold F, ln.
      destruct xt; (destruct (Nat.ltb_spec i (oprows t A)); [|lia]).
      + unfold mvec, mmul, cj. rewrite (sum_conj L). apply sum_ext. intros j Hj.
        rewrite (rl_conj_mul K L), CC. reflexivity.
      + reflexivity.
    - intros i k Hi1 Hi2 Hk'. unfold tr, F, ln.
      destruct xt; (destruct (Nat.ltb_spec i (oprows t A)); [lia|reflexivity]). }
  clear HQ TU TZ TE.
  destruct lower; unfold triangulareval_amatrix; [unfold lowereval_amatrix|unfold uppereval_amatrix];
    destruct xt; unfold lnn in H1, H2; wstep; wstep; destruct t;
    [change (mrows X) with (nln true X) in |- *
    |change (mrows X) with (nln true X) in |- *
    |change (mcols X) with (nln false X) in |- *
    |change (mcols X) with (nln false X) in |- *
    |change (mrows X) with (nln true X) in |- *
    |change (mrows X) with (nln true X) in |- *
    |change (mcols X) with (nln false X) in |- *
    |change (mcols X) with (nln false X) in |- * ];
    (eapply (wp_mlines R W (fun m => pval m A (intri _ aunit) f) _ X _ F);
      [exact Hwf|exact Hx|exact HA|exact HPk| |exact HQ']);
    intros k m1 Q1 Hk Hl HP1 HQ1;
    [ eapply (wp_eval_upper L R W (fun m => pval m A (intri _ aunit) f) (lc true X k) (lnn true X))
    | eapply wp_eval_lower with (P := fun m => pval m A (intri _ aunit) f) (c := lc true X k) (N := lnn true X) (nc := mcols A)
    | eapply (wp_eval_upper L R W (fun m => pval m A (intri _ aunit) f) (lc false X k) (lnn false X))
    | eapply wp_eval_lower with (P := fun m => pval m A (intri _ aunit) f) (c := lc false X k) (N := lnn false X) (nc := mcols A)
    | eapply wp_eval_lower with (P := fun m => pval m A (intri _ aunit) f) (c := lc true X k) (N := lnn true X) (nc := mrows A)
    | eapply (wp_eval_upper L R W (fun m => pval m A (intri _ aunit) f) (lc true X k) (lnn true X))
    | eapply wp_eval_lower with (P := fun m => pval m A (intri _ aunit) f) (c := lc false X k) (N := lnn false X) (nc := mrows A)
    | eapply (wp_eval_upper L R W (fun m => pval m A (intri _ aunit) f) (lc false X k) (lnn false X))];
    try exact L; try (apply linj_lc; [exact Hwf|exact Hk]); try exact (HW k Hk); try exact (HPl k Hk);
    try exact Hl; try exact HP1; try exact HQ1; try exact CU;
    try (intros i j Hij; apply CZ; exact Hij); try lia; try (cbn; lia).
  - eapply reads_imp; [apply reads_t; exact Hr|]. cbv beta. intros i j [Hi [Hj H]].
    split; [tri_in|]. rewrite CE by exact H. symmetry; apply CC.
  - eapply reads_imp; [apply reads_c; exact Hr|]. cbv beta. intros i j [Hi [Hj H]].
    split; [tri_in|]. rewrite CE by exact H. reflexivity.
  - eapply reads_imp; [apply reads_tc; exact Hr|]. cbv beta. intros i j [Hi [Hj H]].
    split; [tri_in|]. rewrite CE by exact H. reflexivity.
  - eapply reads_imp; [apply reads_n; exact Hr|]. cbv beta. intros i j [Hi [Hj H]].
    split; [tri_in|]. rewrite CE by exact H. reflexivity.
  - eapply reads_imp; [apply reads_t; exact Hr|]. cbv beta. intros i j [Hi [Hj H]].
    split; [tri_in|]. rewrite CE by exact H. symmetry; apply CC.
  - eapply reads_imp; [apply reads_c; exact Hr|]. cbv beta. intros i j [Hi [Hj H]].
    split; [tri_in|]. rewrite CE by exact H. reflexivity.
  - eapply reads_imp; [apply reads_tc; exact Hr|]. cbv beta. intros i j [Hi [Hj H]].
    split; [tri_in|]. rewrite CE by exact H. reflexivity.
  - eapply reads_imp; [apply reads_n; exact Hr|]. cbv beta. intros i j [Hi [Hj H]].
    split; [tri_in|]. rewrite CE by exact H. reflexivity.
Qed.
End Eval2.
