(** * Proofs about diagonal and triangular matrices *)
From Coq Require Import Arith Lia List Bool Ring.
From Verif Require Import Fld Prog View Spec Loop Line Factor FactorSpec.

Section Elim.
Context {K : fops} (L : ring_laws K).
Add Ring Kring : (rl_ring K L).

(** Elimination: [D] is the set of unknowns that have been determined. *)
Definition part (n : nat) (D : nat -> bool) (M : nat -> nat -> K) (g x : nat -> K) : Prop :=
  forall i, i < n ->
    ((if D i then f0 else x i) + sum n (fun j => if D j then M i j * x j else f0) = g i)%F.

Lemma part_step n (D D' : nat -> bool) (M : nat -> nat -> K) (g x x' : nat -> K) p :
  p < n -> D p = false ->
  (forall i, i < n -> D i = true -> M i p = f0) ->
  (M p p * x' p)%F = x p ->
  (forall i, i < n -> i <> p -> x' i = if D i then x i else (x i - M i p * x' p)%F) ->
  (forall i, i < n -> D' i = D i || (i =? p)) ->
  part n D M g x -> part n D' M g x'.
Proof.
  intros Hp HDp HM Hpp Hx HD' H i Hi. rewrite <- (H i Hi).
  assert (E : (sum n (fun j => if D' j then M i j * x' j else f0)
             = sum n (fun j => if D j then M i j * x j else f0) + M i p * x' p)%F).
  { assert (E1 : sum n (fun j => if j =? p then M i j * x' j else f0)%F = (M i p * x' p)%F).
    { rewrite (sum_single L n p _ Hp).
      - rewrite Nat.eqb_refl. reflexivity.
      - intros j _ Hj. destruct (Nat.eqb_spec j p); [contradiction|reflexivity]. }
    rewrite <- E1, <- (sum_add L). apply sum_ext. intros j Hj. cbv beta. rewrite HD' by exact Hj.
    destruct (Nat.eqb_spec j p) as [->|E].
    - rewrite HDp. cbn. ring.
    - rewrite orb_false_r. destruct (D j) eqn:E'; [|ring].
      rewrite (Hx j) by assumption. rewrite E'. ring. }
  rewrite E. rewrite HD' by exact Hi.
  destruct (Nat.eqb_spec i p) as [->|E'].
  - rewrite HDp. cbn. rewrite <- Hpp. ring.
  - rewrite orb_false_r. destruct (D i) eqn:E''.
    + rewrite HM by assumption. ring.
    + rewrite (Hx i) by assumption. rewrite E''. ring.
Qed.

Lemma part_start n (D : nat -> bool) M g : (forall i, i < n -> D i = false) -> part n D M g g.
Proof.
  intros HD i Hi. rewrite HD by exact Hi. rewrite (sum_0 L); [ring|].
  intros j Hj. rewrite HD by exact Hj. reflexivity.
Qed.

Lemma part_end n (D : nat -> bool) M g x : (forall i, i < n -> D i = true) -> part n D M g x ->
  forall i, i < n -> mvec n M x i = g i.
Proof.
  intros HD H i Hi. rewrite <- (H i Hi). rewrite HD by exact Hi. unfold mvec.
  rewrite (sum_ext n _ (fun j => if D j then M i j * x j else f0)%F); [ring|].
  intros j Hj. rewrite HD by exact Hj. reflexivity.
Qed.
End Elim.

(** [la] reads the entries [M i j] with [i, j < n] while [P] holds. *)
Definition reads {K : fops} (R W : addr -> Prop) (P : mem K -> Prop) (ok : nat -> nat -> Prop)
  (la : nat -> nat -> prog K K) (M : nat -> nat -> K) : Prop :=
  forall i j m, ok i j -> P m -> wp R W (la i j) m (fun v m' => v = M i j /\ m' = m).

Section Acc.
Context {K : fops}.
Implicit Types (m : mem K) (R W : addr -> Prop) (A : mat).

Lemma pval_keeps m m' A ok f W : pval m A ok f -> keeps W m m' -> disj (inp A ok) W -> pval m' A ok f.
Proof.
  intros H [_ Hk] Hd i j Hi Hj Ho. rewrite Hk; [auto|]. intros Hw. eapply Hd; [|exact Hw].
  exists i, j. auto.
Qed.
Lemma mval_pval m A f ok : mval m A f -> pval m A ok f.
Proof. intros H i j Hi Hj _. auto. Qed.
Lemma inp_inm A ok a : inp A ok a -> inm A a.
Proof. intros (i & j & Hi & Hj & _ & ->). apply inm_ma; assumption. Qed.
Lemma disj_inp A ok (W : addr -> Prop) : disj (inm A) W -> disj (inp A ok) W.
Proof. intros H a Ha. apply H. eapply inp_inm, Ha. Qed.

Lemma wp_pval R W A ok f i j m (Q : K -> mem K -> Prop) :
  rdok R W (inp A ok) -> pval m A ok f -> i < mrows A -> j < mcols A -> ok i j ->
  Q (f i j) m -> wp R W (mload A i j) m Q.
Proof.
  intros Hr H Hi Hj Ho HQ. unfold mload. eapply wp_pload; [apply H; assumption| |exact HQ].
  apply Hr. exists i, j. auto.
Qed.

Lemma reads_n R W A ok f : rdok R W (inp A ok) ->
  reads R W (fun m => pval m A ok f) (fun i j => i < mrows A /\ j < mcols A /\ ok i j)
    (fun i j => mload A i j) f.
Proof. intros Hr i j m (Hi & Hj & Ho) Hm. eapply wp_pval; eauto. Qed.

Lemma reads_c R W A ok f : rdok R W (inp A ok) ->
  reads R W (fun m => pval m A ok f) (fun i j => i < mrows A /\ j < mcols A /\ ok i j)
    (fun i j => mloadc A i j) (fun i j => fconj (f i j)).
Proof. intros Hr i j m (Hi & Hj & Ho) Hm. unfold mloadc. apply wp_bind. eapply wp_pval; eauto. wstep. auto. Qed.

Lemma reads_t R W A ok f : rdok R W (inp A ok) ->
  reads R W (fun m => pval m A ok f) (fun i j => j < mrows A /\ i < mcols A /\ ok j i)
    (fun i j => mload A j i) (fun i j => f j i).
Proof. intros Hr i j m (Hi & Hj & Ho) Hm. eapply wp_pval; eauto. Qed.

Lemma reads_tc R W A ok f : rdok R W (inp A ok) ->
  reads R W (fun m => pval m A ok f) (fun i j => j < mrows A /\ i < mcols A /\ ok j i)
    (fun i j => mloadc A j i) (fun i j => fconj (f j i)).
Proof. intros Hr i j m (Hi & Hj & Ho) Hm. unfold mloadc. apply wp_bind. eapply wp_pval; eauto. wstep. auto. Qed.

Lemma reads_imp R W P (ok ok' : nat -> nat -> Prop) la (M M' : nat -> nat -> K) :
  reads R W P ok la M -> (forall i j, ok' i j -> ok i j /\ M i j = M' i j) ->
  reads R W P ok' la M'.
Proof.
  intros H HM i j m Hij Hp. destruct (HM i j Hij) as [H1 H2]. rewrite <- H2. apply H; assumption.
Qed.

Lemma wp_reads {R W P ok la M i j m} (Q : K -> mem K -> Prop) :
  @reads K R W P ok la M -> ok i j -> P m -> Q (M i j) m -> wp R W (la i j) m Q.
Proof.
  intros H H1 H2 HQ. eapply wp_conseq; [exact (H i j m H1 H2)|]. cbn. intros v m' [-> ->]. exact HQ.
Qed.
End Acc.

(** Solves [reads_imp] obligations. *)
Ltac tri_in := split; [lia|split; [lia|
  unfold intri; match goal with H : _ \/ _ |- _ =>
    cbn [xorb] in H; destruct H as [[? ?]|?]; [left; split; [lia|assumption]|right; lia] end]].

Section Solve.
Context {K : fops} (L : field_laws K).
Add Ring Kring2 : (rl_ring K (fl_ring K L)).
Implicit Types (m : mem K) (R W : addr -> Prop) (A : mat) (x : vec) (P : mem K -> Prop).

Lemma mul_div (a b : K) : b <> f0 -> (b * (a / b))%F = a.
Proof.
  intros H. unfold fdiv. transitivity (a * (b * finv b))%F; [ring|].
  rewrite (finv_r L) by exact H. ring.
Qed.

(** One step of the vector version. *)
Lemma wp_solve_step R W P (aunit : bool) la (T : nat -> nat -> K) x p lo cnt f m
  (Q : unit -> mem K -> Prop) :
  vval m x f -> P m ->
  (forall m', keeps (inv x) m m' -> P m') ->
  wrok W (inv x) -> p < vdim x -> lo + cnt <= vdim x -> ~ lo <= p < lo + cnt ->
  reads R W P (fun i j => j = p /\ (i = p /\ aunit = false \/ lo <= i < lo + cnt)) la T ->
  T p p <> f0 -> (aunit = true -> T p p = f1) ->
  (forall (x' : nat -> K) m',
     (T p p * x' p)%F = f p ->
     (forall i, i < vdim x -> i <> p ->
        x' i = if (lo <=? i) && (i <? lo + cnt) then (f i - T i p * x' p)%F else f i) ->
     vval m' x x' -> keeps (inv x) m m' -> Q tt m') ->
  wp R W (solve_step aunit la x p lo cnt) m Q.
Proof.
  intros Hv HP HPk Hw Hp Hc Hnp Hr Hd Hu HQ. unfold solve_step.
  set (q := if aunit then f p else (f p / T p p)%F).
  assert (Hq : (T p p * q)%F = f p).
  { unfold q. destruct aunit; [rewrite Hu by reflexivity; ring|apply mul_div; exact Hd]. }
  apply wp_bind.
  apply (wp_conseq _ R W m (fun v m1 => v = q /\ vval m1 x (fupd f p q) /\ keeps (inv x) m m1)).
  { destruct aunit.
    - wstep. split; [reflexivity|]. split; [|apply keeps_refl].
      eapply vval_ext; [exact Hv|]. intros i Hi. unfold fupd, q.
      destruct (Nat.eqb_spec i p); [subst|]; reflexivity.
    - wstep. apply wp_bind. eapply (wp_reads _ Hr); [auto|exact HP|]. wstep. wstep.
      split; [reflexivity|]. split.
      + apply vval_upd_same; assumption.
      + apply keeps_upd. apply inv_va. exact Hp. }
  cbv beta. intros v m1 [-> [Hv1 Hk1]].
  apply (wp_vloop R W x cnt lo (fupd f p q) (fun i => f i - T i p * q)%F);
    [exact Hv1|exact Hc| |].
  - intros i m2 Hi Hv2 Hk2. wstep. apply wp_bind.
    eapply (wp_reads _ Hr); [auto| |].
    { apply HPk. eapply keeps_trans; [exact Hk1|exact Hk2]. }
    wstep. wrote_tac. unfold fupd. bsplit; reflexivity.
  - intros m2 Hv2 Hk2.
    apply (HQ (fun k => if (lo <=? k) && (k <? lo + cnt) then (f k - T k p * q)%F else fupd f p q k)).
    + unfold fupd. rewrite Nat.eqb_refl. bsplit; exact Hq.
    + intros i Hi Hne. unfold fupd. rewrite Nat.eqb_refl.
      destruct (Nat.eqb_spec i p); [contradiction|]. bsplit; reflexivity.
    + exact Hv2.
    + eapply keeps_trans; [exact Hk1|exact Hk2].
Qed.

(** Forward and backward substitution for a matrix [T] that is lower (upper)
    triangular on the leading [n x n] part. *)
Lemma wp_solve_forward R W P (aunit : bool) la (T : nat -> nat -> K) x n f m
  (Q : unit -> mem K -> Prop) :
  vval m x f -> P m -> (forall m1 m2, P m1 -> keeps (inv x) m1 m2 -> P m2) ->
  wrok W (inv x) -> n <= vdim x ->
  reads R W P (fun i j => j < n /\ (i = j /\ aunit = false \/ j < i < n)) la T ->
  (forall i j, i < j -> j < n -> T i j = f0) ->
  (forall i, i < n -> T i i <> f0) -> (aunit = true -> forall i, i < n -> T i i = f1) ->
  (forall (x' : nat -> K) m', (forall i, i < n -> mvec n T x' i = f i) ->
     (forall i, n <= i -> i < vdim x -> x' i = f i) ->
     vval m' x x' -> keeps (inv x) m m' -> Q tt m') ->
  wp R W (for_ 0 n (fun j => solve_step aunit la x j (j + 1) (n - (j + 1)))) m Q.
Proof.
  intros Hv HP HPk Hw Hn Hr HT Hd Hu HQ.
  apply (wp_for (fun k m1 => exists g, vval m1 x g /\ part n (fun j => j <? k) T f g /\
                    (forall i, n <= i -> i < vdim x -> g i = f i) /\ keeps (inv x) m m1)).
  - exists f. split; [exact Hv|]. split; [|split; [reflexivity|apply keeps_refl]].
    apply (part_start (fl_ring K L)). intros; reflexivity.
  - intros k m1 Hk [g [Hg [Hpa [Ho Hkp]]]].
    assert (HP1 : P m1) by (exact (HPk m m1 HP Hkp)).
    eapply (wp_solve_step R W P aunit la T x k);
      [exact Hg|exact HP1|intros m' Hm'; exact (HPk m1 m' HP1 Hm')|exact Hw|lia|lia|lia| | | |].
    + eapply reads_imp; [exact Hr|]. cbn. intros i j [-> H]. split; [|reflexivity].
      destruct H as [[-> H]|H]; [split; [lia|left; auto]|split; [lia|right; lia]].
    + apply Hd; lia.
    + intros E; apply Hu; [exact E|lia].
    + intros x' m2 H1 H2 Hv2 Hk2. exists x'. split; [exact Hv2|]. split; [|split].
      * apply (part_step (fl_ring K L) n (fun j => j <? k) (fun j => j <? S k) T f g x' k); [..|exact Hpa].
        -- lia.
        -- apply Nat.ltb_ge; lia.
        -- intros i Hi HD. apply HT; [apply Nat.ltb_lt in HD|]; lia.
        -- exact H1.
        -- intros i Hi Hne. rewrite H2 by lia. bsplit; reflexivity.
        -- intros i Hi; cbv beta. destruct (Nat.ltb_spec i (S k)), (Nat.ltb_spec i k), (Nat.eqb_spec i k);
             cbn; try reflexivity; lia.
      * intros i Hi1 Hi2. rewrite H2 by lia. bsplit; apply Ho; assumption.
      * eapply keeps_trans; eassumption.
  - intros m1 [g [Hg [Hpa [Ho Hkp]]]]. eapply HQ; [|exact Ho|exact Hg|exact Hkp].
    eapply (part_end (fl_ring K L)); [|exact Hpa]. intros i Hi. apply Nat.ltb_lt. lia.
Qed.

Lemma wp_solve_backward R W P (aunit : bool) la (T : nat -> nat -> K) x n f m
  (Q : unit -> mem K -> Prop) :
  vval m x f -> P m -> (forall m1 m2, P m1 -> keeps (inv x) m1 m2 -> P m2) ->
  wrok W (inv x) -> n <= vdim x ->
  reads R W P (fun i j => j < n /\ (i = j /\ aunit = false \/ i < j)) la T ->
  (forall i j, j < i -> i < n -> T i j = f0) ->
  (forall i, i < n -> T i i <> f0) -> (aunit = true -> forall i, i < n -> T i i = f1) ->
  (forall (x' : nat -> K) m', (forall i, i < n -> mvec n T x' i = f i) ->
     (forall i, n <= i -> i < vdim x -> x' i = f i) ->
     vval m' x x' -> keeps (inv x) m m' -> Q tt m') ->
  wp R W (fordown n (fun j => solve_step aunit la x j 0 j)) m Q.
Proof.
  intros Hv HP HPk Hw Hn Hr HT Hd Hu HQ.
  apply (wp_fordown (fun k m1 => exists g, vval m1 x g /\ part n (fun j => k <=? j) T f g /\
                    (forall i, n <= i -> i < vdim x -> g i = f i) /\ keeps (inv x) m m1)).
  - exists f. split; [exact Hv|]. split; [|split; [reflexivity|apply keeps_refl]].
    apply (part_start (fl_ring K L)). intros; apply Nat.leb_gt; lia.
  - intros k m1 Hk [g [Hg [Hpa [Ho Hkp]]]].
    assert (HP1 : P m1) by (exact (HPk m m1 HP Hkp)).
    eapply (wp_solve_step R W P aunit la T x k);
      [exact Hg|exact HP1|intros m' Hm'; exact (HPk m1 m' HP1 Hm')|exact Hw|lia|lia|lia| | | |].
    + eapply reads_imp; [exact Hr|]. cbn. intros i j [-> H]. split; [|reflexivity].
      destruct H as [[-> H]|H]; [split; [lia|left; auto]|split; [lia|right; lia]].
    + apply Hd; lia.
    + intros E; apply Hu; [exact E|lia].
    + intros x' m2 H1 H2 Hv2 Hk2. exists x'. split; [exact Hv2|]. split; [|split].
      * apply (part_step (fl_ring K L) n (fun j => S k <=? j) (fun j => k <=? j) T f g x' k); [..|exact Hpa].
        -- lia.
        -- apply Nat.leb_gt; lia.
        -- intros i Hi HD. apply HT; [apply Nat.leb_le in HD|]; lia.
        -- exact H1.
        -- intros i Hi Hne. rewrite H2 by lia. bsplit; reflexivity.
        -- intros i Hi; cbv beta. destruct (Nat.leb_spec k i), (Nat.leb_spec (S k) i), (Nat.eqb_spec i k);
             cbn; try reflexivity; lia.
      * intros i Hi1 Hi2. rewrite H2 by lia. bsplit; apply Ho; assumption.
      * eapply keeps_trans; eassumption.
  - intros m1 [g [Hg [Hpa [Ho Hkp]]]]. eapply HQ; [|exact Ho|exact Hg|exact Hkp].
    eapply (part_end (fl_ring K L)); [|exact Hpa]. intros i Hi. reflexivity.
Qed.

(** The matrix versions transform every column (every row, for [t]) of [X]. *)
Definition ln (t : bool) (X : nat -> nat -> K) (l i : nat) : K := if t then X l i else X i l.
Definition nln (t : bool) (X : mat) : nat := if t then mrows X else mcols X.
Definition lnn (t : bool) (X : mat) : nat := if t then mcols X else mrows X.

(** Effect of one step on all lines. *)
Definition stepped (t : bool) (X : mat) (T : nat -> nat -> K) (k lo cnt : nat)
  (f g : nat -> nat -> K) : Prop :=
  forall l, l < nln t X ->
    (T k k * ln t g l k)%F = ln t f l k /\
    forall i, i < lnn t X -> i <> k ->
      ln t g l i = if (lo <=? i) && (i <? lo + cnt) then (ln t f l i - T i k * ln t g l k)%F
                   else ln t f l i.

Lemma inv_mul (a b : K) : b <> f0 -> (b * (a * (f1 / b)))%F = a.
Proof.
  intros H. unfold fdiv. transitivity (a * (b * finv b))%F; [ring|].
  rewrite (finv_r L) by exact H. ring.
Qed.

Lemma wp_solve_rows R W P (aunit : bool) la (T : nat -> nat -> K) (X : mat) k lo cnt f m
  (Q : unit -> mem K -> Prop) :
  mwf X -> mval m X f -> P m ->
  (forall m', keeps (inm X) m m' -> P m') ->
  wrok W (inm X) -> k < mrows X -> lo + cnt <= mrows X -> ~ lo <= k < lo + cnt ->
  reads R W P (fun i j => j = k /\ (i = k /\ aunit = false \/ lo <= i < lo + cnt)) la T ->
  T k k <> f0 -> (aunit = true -> T k k = f1) ->
  (forall (g : nat -> nat -> K) m', stepped false X T k lo cnt f g ->
     mval m' X g -> keeps (inm X) m m' -> Q tt m') ->
  wp R W (solve_rows aunit la X k lo cnt) m Q.
Proof.
  intros Hwf Hv HP HPk Hw Hp Hc Hnp Hr Hd Hu HQ. unfold solve_rows.
  set (q := fun j => if aunit then f k j else (f k j * (f1 / T k k))%F).
  assert (Hq : forall j, (T k k * q j)%F = f k j).
  { intros j. unfold q. destruct aunit; [rewrite Hu by reflexivity; ring|apply inv_mul; exact Hd]. }
  apply wp_bind.
  apply (wp_conseq _ R W m (fun _ m1 => mval m1 X (fun i j => if i =? k then q j else f i j)
                                        /\ keeps (inm X) m m1)).
  { destruct aunit.
    - cbn [wp]. split; [|apply keeps_refl]. eapply mval_ext; [exact Hv|].
      intros i j Hi Hj. unfold q. destruct (Nat.eqb_spec i k); [subst|]; reflexivity.
    - apply wp_bind. eapply (wp_reads _ Hr); [auto|exact HP|].
      apply (wp_mrow R W X k 0 (mcols X) f q); [exact Hwf|exact Hv|exact Hp|right; lia| |].
      + intros j m1 Hj Hv1 Hk1. wstep. wstep. wrote_tac.
      + intros m1 Hv1 Hk1. split; [|exact Hk1]. eapply mval_ext; [exact Hv1|].
        intros i j Hi Hj; cbv beta. bsplit; reflexivity. }
  cbv beta. intros _ m1 [Hv1 Hk1].
  apply (wp_rect R W X lo cnt 0 (mcols X) (fun i j => if i =? k then q j else f i j)
           (fun i j => f i j - T i k * q j)%F);
    [exact Hwf|exact Hv1|right; lia|right; lia| |].
  - intros i j m2 Hj Hi Hv2 Hk2. wstep. apply wp_bind.
    eapply (wp_reads _ Hr); [auto| |].
    { apply HPk. eapply keeps_trans; [exact Hk1|exact Hk2]. }
    wstep. wstep. wrote_tac.
  - intros m2 Hv2 Hk2.
    eapply HQ; [|exact Hv2|eapply keeps_trans; [exact Hk1|exact Hk2]].
    intros l Hl. unfold ln, lnn, nln in *. split.
    + rewrite Nat.eqb_refl. bsplit; apply Hq.
    + intros i Hi Hne. rewrite Nat.eqb_refl. bsplit; reflexivity.
Qed.

Lemma wp_solve_cols R W P (aunit : bool) la (T : nat -> nat -> K) (X : mat) k lo cnt f m
  (Q : unit -> mem K -> Prop) :
  mwf X -> mval m X f -> P m ->
  (forall m', keeps (inm X) m m' -> P m') ->
  wrok W (inm X) -> k < mcols X -> lo + cnt <= mcols X -> ~ lo <= k < lo + cnt ->
  reads R W P (fun i j => j = k /\ (i = k /\ aunit = false \/ lo <= i < lo + cnt)) la T ->
  T k k <> f0 -> (aunit = true -> T k k = f1) ->
  (forall (g : nat -> nat -> K) m', stepped true X T k lo cnt f g ->
     mval m' X g -> keeps (inm X) m m' -> Q tt m') ->
  wp R W (solve_cols aunit la X k lo cnt) m Q.
Proof.
  intros Hwf Hv HP HPk Hw Hp Hc Hnp Hr Hd Hu HQ. unfold solve_cols.
  set (q := fun i => if aunit then f i k else (f i k * (f1 / T k k))%F).
  assert (Hq : forall i, (T k k * q i)%F = f i k).
  { intros i. unfold q. destruct aunit; [rewrite Hu by reflexivity; ring|apply inv_mul; exact Hd]. }
  apply wp_bind.
  apply (wp_conseq _ R W m (fun _ m1 => mval m1 X (fun i j => if j =? k then q i else f i j)
                                        /\ keeps (inm X) m m1)).
  { destruct aunit.
    - cbn [wp]. split; [|apply keeps_refl]. eapply mval_ext; [exact Hv|].
      intros i j Hi Hj. unfold q. destruct (Nat.eqb_spec j k); [subst|]; reflexivity.
    - apply wp_bind. eapply (wp_reads _ Hr); [auto|exact HP|].
      apply (wp_mcol R W X k 0 (mrows X) f q); [exact Hwf|exact Hv|exact Hp|right; lia| |].
      + intros j m1 Hj Hv1 Hk1. wstep. wstep. wrote_tac.
      + intros m1 Hv1 Hk1. split; [|exact Hk1]. eapply mval_ext; [exact Hv1|].
        intros i j Hi Hj; cbv beta. bsplit; reflexivity. }
  cbv beta. intros _ m1 [Hv1 Hk1].
  apply (wp_rect R W X 0 (mrows X) lo cnt (fun i j => if j =? k then q i else f i j)
           (fun i j => f i j - T j k * q i)%F);
    [exact Hwf|exact Hv1|right; lia|right; lia| |].
  - intros i j m2 Hj Hi Hv2 Hk2. wstep. wstep. apply wp_bind.
    eapply (wp_reads _ Hr); [auto| |].
    { apply HPk. eapply keeps_trans; [exact Hk1|exact Hk2]. }
    wstep. wrote_tac; ring.
  - intros m2 Hv2 Hk2.
    eapply HQ; [|exact Hv2|eapply keeps_trans; [exact Hk1|exact Hk2]].
    intros l Hl. unfold ln, lnn, nln in *. split.
    + rewrite Nat.eqb_refl. bsplit; apply Hq.
    + intros i Hi Hne. rewrite Nat.eqb_refl. bsplit; reflexivity.
Qed.

(** A program that performs the steps given by [stepped]. *)
Definition dostep R W P (t : bool) (X : mat) (T : nat -> nat -> K)
  (stp : nat -> prog K unit) (lo cnt : nat -> nat) (n : nat) : Prop :=
  forall k f m (Q : unit -> mem K -> Prop), k < n -> mval m X f -> P m ->
    (forall (g : nat -> nat -> K) m', stepped t X T k (lo k) (cnt k) f g ->
       mval m' X g -> keeps (inm X) m m' -> Q tt m') ->
    wp R W (stp k) m Q.

Lemma wp_msolve_forward R W P (t : bool) (X : mat) (T : nat -> nat -> K) stp n f m
  (Q : unit -> mem K -> Prop) :
  mval m X f -> P m -> (forall m1 m2, P m1 -> keeps (inm X) m1 m2 -> P m2) ->
  n <= lnn t X ->
  dostep R W P t X T stp (fun k => k + 1) (fun k => n - (k + 1)) n ->
  (forall i j, i < j -> j < n -> T i j = f0) ->
  (forall (g : nat -> nat -> K) m',
     (forall l i, l < nln t X -> i < n -> mvec n T (ln t g l) i = ln t f l i) ->
     (forall l i, l < nln t X -> n <= i -> i < lnn t X -> ln t g l i = ln t f l i) ->
     mval m' X g -> keeps (inm X) m m' -> Q tt m') ->
  wp R W (for_ 0 n stp) m Q.
Proof.
  intros Hv HP HPk Hn Hst HT HQ.
  apply (wp_for (fun k m1 => exists g : nat -> nat -> K, mval m1 X g /\
     (forall l, l < nln t X -> part n (fun j => j <? k) T (ln t f l) (ln t g l)) /\
     (forall l i, l < nln t X -> n <= i -> i < lnn t X -> ln t g l i = ln t f l i) /\
     keeps (inm X) m m1)).
  - exists f. split; [exact Hv|]. split; [|split; [reflexivity|apply keeps_refl]].
    intros l Hl. apply (part_start (fl_ring K L)). intros; reflexivity.
  - intros k m1 Hk [g [Hg [Hpa [Ho Hkp]]]].
    assert (HP1 : P m1) by (exact (HPk m m1 HP Hkp)).
    apply (Hst k g); [lia|exact Hg|exact HP1|].
    intros g' m2 Hs Hv2 Hk2. exists g'. split; [exact Hv2|]. split; [|split].
    + intros l Hl. destruct (Hs l Hl) as [H1 H2].
      apply (part_step (fl_ring K L) n (fun j => j <? k) (fun j => j <? S k) T (ln t f l) (ln t g l)
               (ln t g' l) k); [..|exact (Hpa l Hl)].
      * lia.
      * apply Nat.ltb_ge; lia.
      * intros i Hi HD. apply HT; [apply Nat.ltb_lt in HD|]; lia.
      * exact H1.
      * intros i Hi Hne. rewrite H2 by lia. bsplit; reflexivity.
      * intros i Hi; cbv beta. destruct (Nat.ltb_spec i (S k)), (Nat.ltb_spec i k), (Nat.eqb_spec i k);
          cbn; try reflexivity; lia.
    + intros l i Hl Hi1 Hi2. destruct (Hs l Hl) as [_ H2]. rewrite H2 by lia.
      bsplit; apply Ho; assumption.
    + eapply keeps_trans; eassumption.
  - intros m1 [g [Hg [Hpa [Ho Hkp]]]]. eapply HQ; [|exact Ho|exact Hg|exact Hkp].
    intros l i Hl Hi. refine (part_end (fl_ring K L) n _ T _ _ _ (Hpa l Hl) i Hi).
    intros j Hj. apply Nat.ltb_lt. lia.
Qed.

Lemma wp_msolve_backward R W P (t : bool) (X : mat) (T : nat -> nat -> K) stp n f m
  (Q : unit -> mem K -> Prop) :
  mval m X f -> P m -> (forall m1 m2, P m1 -> keeps (inm X) m1 m2 -> P m2) ->
  n <= lnn t X ->
  dostep R W P t X T stp (fun k => 0) (fun k => k) n ->
  (forall i j, j < i -> i < n -> T i j = f0) ->
  (forall (g : nat -> nat -> K) m',
     (forall l i, l < nln t X -> i < n -> mvec n T (ln t g l) i = ln t f l i) ->
     (forall l i, l < nln t X -> n <= i -> i < lnn t X -> ln t g l i = ln t f l i) ->
     mval m' X g -> keeps (inm X) m m' -> Q tt m') ->
  wp R W (fordown n stp) m Q.
Proof.
  intros Hv HP HPk Hn Hst HT HQ.
  apply (wp_fordown (fun k m1 => exists g : nat -> nat -> K, mval m1 X g /\
     (forall l, l < nln t X -> part n (fun j => k <=? j) T (ln t f l) (ln t g l)) /\
     (forall l i, l < nln t X -> n <= i -> i < lnn t X -> ln t g l i = ln t f l i) /\
     keeps (inm X) m m1)).
  - exists f. split; [exact Hv|]. split; [|split; [reflexivity|apply keeps_refl]].
    intros l Hl. apply (part_start (fl_ring K L)). intros; apply Nat.leb_gt; lia.
  - intros k m1 Hk [g [Hg [Hpa [Ho Hkp]]]].
    assert (HP1 : P m1) by (exact (HPk m m1 HP Hkp)).
    apply (Hst k g); [lia|exact Hg|exact HP1|].
    intros g' m2 Hs Hv2 Hk2. exists g'. split; [exact Hv2|]. split; [|split].
    + intros l Hl. destruct (Hs l Hl) as [H1 H2].
      apply (part_step (fl_ring K L) n (fun j => S k <=? j) (fun j => k <=? j) T (ln t f l) (ln t g l)
               (ln t g' l) k); [..|exact (Hpa l Hl)].
      * lia.
      * apply Nat.leb_gt; lia.
      * intros i Hi HD. apply HT; [apply Nat.leb_le in HD|]; lia.
      * exact H1.
      * intros i Hi Hne. rewrite H2 by lia. bsplit; reflexivity.
      * intros i Hi; cbv beta. destruct (Nat.leb_spec k i), (Nat.leb_spec (S k) i), (Nat.eqb_spec i k);
          cbn; try reflexivity; lia.
    + intros l i Hl Hi1 Hi2. destruct (Hs l Hl) as [_ H2]. rewrite H2 by lia.
      bsplit; apply Ho; assumption.
    + eapply keeps_trans; eassumption.
  - intros m1 [g [Hg [Hpa [Ho Hkp]]]]. eapply HQ; [|exact Ho|exact Hg|exact Hkp].
    intros l i Hl Hi. refine (part_end (fl_ring K L) n _ T _ _ _ (Hpa l Hl) i Hi).
    intros j Hj. reflexivity.
Qed.

(** ** The functions *)
Lemma T_diag (lower aunit t : bool) (f : nat -> nat -> K) n :
  (aunit = true \/ forall i, i < n -> f i i <> f0) ->
  forall i, i < n -> tr t (tripart lower aunit f) i i <> f0.
Proof.
  intros Hdiag i Hi.
  assert (H : tripart lower aunit f i i <> f0).
  { unfold tripart. rewrite Nat.eqb_refl.
    destruct aunit; [apply (fl_1_neq_0 K L)|]. destruct Hdiag as [?|Hd]; [discriminate|auto]. }
  destruct t; [|exact H]. cbn. intros E. apply H.
  rewrite <- (rl_conj_conj K (fl_ring K L) (tripart lower aunit f i i)), E.
  apply (fconj_0 (fl_ring K L)).
Qed.

Lemma T_unit (lower aunit t : bool) (f : nat -> nat -> K) i :
  aunit = true -> tr t (tripart lower aunit f) i i = f1.
Proof.
  intros ->. destruct t; cbn; unfold tripart; rewrite Nat.eqb_refl;
    [apply (fconj_1 (fl_ring K L))|reflexivity].
Qed.

Lemma T_zero (lower aunit t : bool) (f : nat -> nat -> K) i j :
  (if xorb lower t then i < j else j < i) -> tr t (tripart lower aunit f) i j = f0.
Proof.
  intros H. destruct lower, t; cbn in H |- *; unfold tripart; bsplit;
    try reflexivity; apply (fconj_0 (fl_ring K L)).
Qed.

Lemma T_entry (lower aunit t : bool) (f : nat -> nat -> K) i j :
  i = j /\ aunit = false \/ (if xorb lower t then j < i else i < j) ->
  tr t (tripart lower aunit f) i j = tr t f i j.
Proof.
  intros H. destruct H as [[-> ->]|H].
  - destruct t; cbn; unfold tripart; rewrite Nat.eqb_refl; reflexivity.
  - destruct lower, t; cbn in H |- *; unfold tripart; bsplit; reflexivity.
Qed.

Lemma wp_triangularsolve_amatrix_avector R W (lower aunit t : bool) A x f g m
  (Q : unit -> mem K -> Prop) :
  pval m A (intri lower aunit) f -> vval m x g -> disj (inp A (intri lower aunit)) (inv x) ->
  rdok R W (inp A (intri lower aunit)) -> wrok W (inv x) ->
  mrows A <= vdim x -> mcols A <= vdim x ->
  (aunit = true \/ forall i, i < Nat.min (mrows A) (mcols A) -> f i i <> f0) ->
  (forall (x' : nat -> K) m',
     (forall i, i < Nat.min (mrows A) (mcols A) ->
        mvec (Nat.min (mrows A) (mcols A)) (tr t (tripart lower aunit f)) x' i = g i) ->
     (forall i, Nat.min (mrows A) (mcols A) <= i -> i < vdim x -> x' i = g i) ->
     vval m' x x' -> keeps (inv x) m m' -> Q tt m') ->
  wp R W (triangularsolve_amatrix_avector lower aunit t A x) m Q.
Proof.
  intros HA Hx Hdj Hr Hw H1 H2 Hd HQ.
  set (n := Nat.min (mrows A) (mcols A)) in *.
  assert (HPk : forall m1 m2, pval m1 A (intri lower aunit) f -> keeps (inv x) m1 m2 -> pval m2 A (intri lower aunit) f).
  { intros m1 m2 H Hk. eapply pval_keeps; eassumption. }
  pose proof (T_diag lower aunit t f _ Hd) as TD.
  pose proof (fun E i (_ : i < n) => T_unit lower aunit t f i E) as TU.
  pose proof (T_zero lower aunit t f) as TZ. pose proof (T_entry lower aunit t f) as TE.
  fold n in TD.
  destruct lower; unfold triangularsolve_amatrix_avector.
  - unfold lowersolve_amatrix_avector. fold n. wstep. wstep. destruct t.
    + eapply (wp_solve_backward R W (fun m => pval m A (intri true aunit) f));
        [exact Hx|exact HA|exact HPk|exact Hw|lia| |intros i j Hij _; apply TZ; exact Hij
        |exact TD|exact TU|exact HQ].
      eapply reads_imp; [apply reads_tc; exact Hr|]. cbv beta. intros i j [Hj H].
      split; [tri_in|]. symmetry. apply TE. exact H.
    + eapply (wp_solve_forward R W (fun m => pval m A (intri true aunit) f));
        [exact Hx|exact HA|exact HPk|exact Hw|lia| |intros i j Hij _; apply TZ; exact Hij
        |exact TD|exact TU|exact HQ].
      eapply reads_imp; [apply reads_n; exact Hr|]. cbv beta. intros i j [Hj H].
      split; [tri_in|]. symmetry. apply TE. cbn [xorb]. tauto.
  - unfold uppersolve_amatrix_avector. fold n. wstep. wstep. destruct t.
    + eapply (wp_solve_forward R W (fun m => pval m A (intri false aunit) f));
        [exact Hx|exact HA|exact HPk|exact Hw|lia| |intros i j Hij _; apply TZ; exact Hij
        |exact TD|exact TU|exact HQ].
      eapply reads_imp; [apply reads_tc; exact Hr|]. cbv beta. intros i j [Hj H].
      split; [tri_in|]. symmetry. apply TE. cbn [xorb]. tauto.
    + eapply (wp_solve_backward R W (fun m => pval m A (intri false aunit) f));
        [exact Hx|exact HA|exact HPk|exact Hw|lia| |intros i j Hij _; apply TZ; exact Hij
        |exact TD|exact TU|exact HQ].
      eapply reads_imp; [apply reads_n; exact Hr|]. cbv beta. intros i j [Hj H].
      split; [tri_in|]. symmetry. apply TE. exact H.
Qed.

(** Conjugate matrix, as it appears for [xtrans]. *)
Definition cj (t : bool) (T : nat -> nat -> K) (i j : nat) : K := if t then fconj (T i j) else T i j.

Lemma fconj_n0 (a : K) : a <> f0 -> fconj a <> f0.
Proof.
  intros H E. apply H. rewrite <- (rl_conj_conj K (fl_ring K L) a), E. apply (fconj_0 (fl_ring K L)).
Qed.

Lemma wp_triangularsolve_amatrix R W (lower aunit t : bool) A (xt : bool) X f g m
  (Q : unit -> mem K -> Prop) :
  mwf X -> pval m A (intri lower aunit) f -> mval m X g -> disj (inp A (intri lower aunit)) (inm X) ->
  rdok R W (inp A (intri lower aunit)) -> wrok W (inm X) ->
  Nat.min (mrows A) (mcols A) <= lnn xt X ->
  (aunit = true \/ forall i, i < Nat.min (mrows A) (mcols A) -> f i i <> f0) ->
  (forall (g' : nat -> nat -> K) m',
     (forall i k, i < Nat.min (mrows A) (mcols A) -> k < nln xt X ->
        mmul (Nat.min (mrows A) (mcols A)) (tr t (tripart lower aunit f)) (tr xt g') i k
        = tr xt g i k) ->
     (forall i k, Nat.min (mrows A) (mcols A) <= i -> i < lnn xt X -> k < nln xt X ->
        tr xt g' i k = tr xt g i k) ->
     mval m' X g' -> keeps (inm X) m m' -> Q tt m') ->
  wp R W (triangularsolve_amatrix lower aunit t A xt X) m Q.
Proof.
  intros Hwf HA Hx Hdj Hr Hw Hn Hd HQ.
  set (n := Nat.min (mrows A) (mcols A)) in *.
  assert (HPk : forall m1 m2, pval m1 A (intri lower aunit) f -> keeps (inm X) m1 m2 -> pval m2 A (intri lower aunit) f).
  { intros m1 m2 H Hk. eapply pval_keeps; eassumption. }
  pose proof (T_diag lower aunit t f _ Hd) as TD.
  pose proof (fun i E => T_unit lower aunit t f i E) as TU.
  pose proof (T_zero lower aunit t f) as TZ. pose proof (T_entry lower aunit t f) as TE.
  fold n in TD. remember (tr t (tripart lower aunit f)) as T eqn:ET.
  (* facts about the conjugated matrix *)
  assert (CD : forall i, i < n -> cj xt T i i <> f0).
  { intros i Hi. unfold cj. destruct xt; [apply fconj_n0|]; apply TD; exact Hi. }
  assert (CU : forall i, aunit = true -> cj xt T i i = f1).
  { intros i E. unfold cj. rewrite TU by exact E. destruct xt; [apply (fconj_1 (fl_ring K L))|reflexivity]. }
  assert (CZ : forall i j, (if xorb lower t then i < j else j < i) -> cj xt T i j = f0).
  { intros i j H. unfold cj. rewrite TZ by exact H. destruct xt; [apply (fconj_0 (fl_ring K L))|reflexivity]. }
  assert (CE : forall i j, i = j /\ aunit = false \/ (if xorb lower t then j < i else i < j) ->
      cj xt T i j = cj xt (tr t f) i j).
  { intros i j H. unfold cj. rewrite TE by exact H. reflexivity. }
  assert (HQ' : forall (g' : nat -> nat -> K) m',
     (forall l i, l < nln xt X -> i < n -> mvec n (cj xt T) (ln xt g' l) i = ln xt g l i) ->
     (forall l i, l < nln xt X -> n <= i -> i < lnn xt X -> ln xt g' l i = ln xt g l i) ->
     mval m' X g' -> keeps (inm X) m m' -> Q tt m').
  { intros g' m' E1 E2 Hm Hk. apply (HQ g' m'); [| |exact Hm|exact Hk].
    - intros i k Hi Hk'. specialize (E1 k i Hk' Hi). unfold mmul, mvec, cj, ln, tr in *.
      destruct xt; [|exact E1]. rewrite <- E1, (sum_conj (fl_ring K L)).
      apply sum_ext. intros j Hj. rewrite (rl_conj_mul K (fl_ring K L)), (rl_conj_conj K (fl_ring K L)).
      reflexivity.
    - intros i k Hi1 Hi2 Hk'. specialize (E2 k i Hk' Hi1 Hi2). unfold ln, tr in *.
      destruct xt; [f_equal|]; exact E2. }
  clear HQ TD TU TZ TE.
  assert (CC : forall a : K, fconj (fconj a) = a) by apply (rl_conj_conj K (fl_ring K L)).
  destruct lower; unfold triangularsolve_amatrix.
  - unfold lowersolve_amatrix. fold n. destruct t, xt; unfold lnn in Hn; wstep.
    + eapply (wp_msolve_backward R W (fun m => pval m A (intri true aunit) f) true X (cj true T)); [exact Hx|exact HA|exact HPk|exact Hn|
        |intros i j Hij _; apply CZ; exact Hij|exact HQ'].
      intros k h m1 Q1 Hk Hh HP1 HQ1.
      eapply (wp_solve_cols R W (fun m => pval m A (intri true aunit) f)); [exact Hwf|exact Hh|exact HP1|intros m' Hm'; exact (HPk m1 m' HP1 Hm')
        |exact Hw|cbn in Hn; lia|cbn in Hn; lia|lia| |apply CD; exact Hk|apply CU|exact HQ1].
      eapply reads_imp; [apply reads_t; exact Hr|]. cbv beta. intros i j [-> H].
      split; [tri_in|]. rewrite CE by (cbn [xorb]; destruct H; [left; tauto|right; lia]).
      unfold cj, tr. symmetry; apply CC.
    + eapply (wp_msolve_backward R W (fun m => pval m A (intri true aunit) f) false X (cj false T)); [exact Hx|exact HA|exact HPk|exact Hn|
        |intros i j Hij _; apply CZ; exact Hij|exact HQ'].
      intros k h m1 Q1 Hk Hh HP1 HQ1.
      eapply (wp_solve_rows R W (fun m => pval m A (intri true aunit) f)); [exact Hwf|exact Hh|exact HP1|intros m' Hm'; exact (HPk m1 m' HP1 Hm')
        |exact Hw|cbn in Hn; lia|cbn in Hn; lia|lia| |apply CD; exact Hk|apply CU|exact HQ1].
      eapply reads_imp; [apply reads_tc; exact Hr|]. cbv beta. intros i j [-> H].
      split; [tri_in|]. rewrite CE by (cbn [xorb]; destruct H; [left; tauto|right; lia]).
      reflexivity.
    + eapply (wp_msolve_forward R W (fun m => pval m A (intri true aunit) f) true X (cj true T)); [exact Hx|exact HA|exact HPk|exact Hn|
        |intros i j Hij _; apply CZ; exact Hij|exact HQ'].
      intros k h m1 Q1 Hk Hh HP1 HQ1.
      eapply (wp_solve_cols R W (fun m => pval m A (intri true aunit) f)); [exact Hwf|exact Hh|exact HP1|intros m' Hm'; exact (HPk m1 m' HP1 Hm')
        |exact Hw|cbn in Hn; lia|cbn in Hn; lia|lia| |apply CD; exact Hk|apply CU|exact HQ1].
      eapply reads_imp; [apply reads_c; exact Hr|]. cbv beta. intros i j [-> H].
      split; [tri_in|]. rewrite CE by (cbn [xorb]; destruct H; [left; tauto|right; lia]).
      reflexivity.
    + eapply (wp_msolve_forward R W (fun m => pval m A (intri true aunit) f) false X (cj false T)); [exact Hx|exact HA|exact HPk|exact Hn|
        |intros i j Hij _; apply CZ; exact Hij|exact HQ'].
      intros k h m1 Q1 Hk Hh HP1 HQ1.
      eapply (wp_solve_rows R W (fun m => pval m A (intri true aunit) f)); [exact Hwf|exact Hh|exact HP1|intros m' Hm'; exact (HPk m1 m' HP1 Hm')
        |exact Hw|cbn in Hn; lia|cbn in Hn; lia|lia| |apply CD; exact Hk|apply CU|exact HQ1].
      eapply reads_imp; [apply reads_n; exact Hr|]. cbv beta. intros i j [-> H].
      split; [tri_in|]. rewrite CE by (cbn [xorb]; destruct H; [left; tauto|right; lia]).
      reflexivity.
  - unfold uppersolve_amatrix. fold n. destruct t, xt; unfold lnn in Hn; wstep.
    + eapply (wp_msolve_forward R W (fun m => pval m A (intri false aunit) f) true X (cj true T)); [exact Hx|exact HA|exact HPk|exact Hn|
        |intros i j Hij _; apply CZ; exact Hij|exact HQ'].
      intros k h m1 Q1 Hk Hh HP1 HQ1.
      eapply (wp_solve_cols R W (fun m => pval m A (intri false aunit) f)); [exact Hwf|exact Hh|exact HP1|intros m' Hm'; exact (HPk m1 m' HP1 Hm')
        |exact Hw|cbn in Hn; lia|cbn in Hn; lia|lia| |apply CD; exact Hk|apply CU|exact HQ1].
      eapply reads_imp; [apply reads_t; exact Hr|]. cbv beta. intros i j [-> H].
      split; [tri_in|]. rewrite CE by (cbn [xorb]; destruct H; [left; tauto|right; lia]).
      unfold cj, tr. symmetry; apply CC.
    + eapply (wp_msolve_forward R W (fun m => pval m A (intri false aunit) f) false X (cj false T)); [exact Hx|exact HA|exact HPk|exact Hn|
        |intros i j Hij _; apply CZ; exact Hij|exact HQ'].
      intros k h m1 Q1 Hk Hh HP1 HQ1.
      eapply (wp_solve_rows R W (fun m => pval m A (intri false aunit) f)); [exact Hwf|exact Hh|exact HP1|intros m' Hm'; exact (HPk m1 m' HP1 Hm')
        |exact Hw|cbn in Hn; lia|cbn in Hn; lia|lia| |apply CD; exact Hk|apply CU|exact HQ1].
      eapply reads_imp; [apply reads_tc; exact Hr|]. cbv beta. intros i j [-> H].
      split; [tri_in|]. rewrite CE by (cbn [xorb]; destruct H; [left; tauto|right; lia]).
      reflexivity.
    + eapply (wp_msolve_backward R W (fun m => pval m A (intri false aunit) f) true X (cj true T)); [exact Hx|exact HA|exact HPk|exact Hn|
        |intros i j Hij _; apply CZ; exact Hij|exact HQ'].
      intros k h m1 Q1 Hk Hh HP1 HQ1.
      eapply (wp_solve_cols R W (fun m => pval m A (intri false aunit) f)); [exact Hwf|exact Hh|exact HP1|intros m' Hm'; exact (HPk m1 m' HP1 Hm')
        |exact Hw|cbn in Hn; lia|cbn in Hn; lia|lia| |apply CD; exact Hk|apply CU|exact HQ1].
      eapply reads_imp; [apply reads_c; exact Hr|]. cbv beta. intros i j [-> H].
      split; [tri_in|]. rewrite CE by (cbn [xorb]; destruct H; [left; tauto|right; lia]).
      reflexivity.
    + eapply (wp_msolve_backward R W (fun m => pval m A (intri false aunit) f) false X (cj false T)); [exact Hx|exact HA|exact HPk|exact Hn|
        |intros i j Hij _; apply CZ; exact Hij|exact HQ'].
      intros k h m1 Q1 Hk Hh HP1 HQ1.
      eapply (wp_solve_rows R W (fun m => pval m A (intri false aunit) f)); [exact Hwf|exact Hh|exact HP1|intros m' Hm'; exact (HPk m1 m' HP1 Hm')
        |exact Hw|cbn in Hn; lia|cbn in Hn; lia|lia| |apply CD; exact Hk|apply CU|exact HQ1].
      eapply reads_imp; [apply reads_n; exact Hr|]. cbv beta. intros i j [-> H].
      split; [tri_in|]. rewrite CE by (cbn [xorb]; destruct H; [left; tauto|right; lia]).
      reflexivity.
Qed.
End Solve.
