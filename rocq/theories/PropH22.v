(** * Property C48: products of H2-matrices and dense matrices, hermitian H2-matrices *)
From Coq Require Import Arith Lia List Bool ZArith.
From Verif Require Import Fld Inst Ord OrdInst Prog Arr View Spec Loop Cluster Block Avector Amatrix AmatrixP2
  Hmatrix HmSpec HmP HmP2 Clusterbasis CbSpec CbP CbP2 CbP3 CbP4 CbP9 PropCb H2matrix H2Spec H2P H2P2 H2P3 H2P4 H2P5 PropH2.
Import ListNotations.

Section C48.
Context {K : fops} {G : ofops} (L : ring_laws K).
Implicit Types (m : mem K) (h : h2matrix G) (x y : vec) (A B D : nat -> nat -> K) (f g : nat -> K).

Let allr : forall P, rdok (fun _ => True) (fun _ => True) P := fun P a _ => or_introl I.
Let allw : forall P, wrok (fun _ => True) P := fun P a _ => I.

(** Y <- Y + alpha op(H) op(X), rows and columns numbered as in the clusters; [X] and [Y] may share cells. *)
Theorem C48_addmul : forall h alpha (t t' : bool) (X Y : mat) D A B m,
  h2rep (cbmat m) m h D -> h2strict h -> cbready m (h2_rb h) -> cbready m (h2_cb h) -> mval m X A -> mwf Y -> mval m Y B ->
  (if t' then mcols X else mrows X) = (if t then h2rows h else h2cols h) ->
  mrows Y = (if t then h2cols h else h2rows h) -> mcols Y = (if t' then mrows X else mcols X) ->
  mblk X < next m -> mblk Y < next m -> (forall a, inh2b h a -> fst a < next m) -> disj (inh2b h) (inm Y) ->
  ends (addmul_h2matrix_amatrix_amatrix alpha t h t' X Y) m (fun _ m' =>
    mval m' Y (fun i j => B i j + alpha * sum (if t then h2rows h else h2cols h) (fun k => tr t D i k * tr t' A k j))%F /\ keeps (inm Y) m m').
Proof.
  intros h alpha t t' X Y D A B m P1 P2 P3 P4 P5 P6 P7 P8 P9 P10 P11 P12 P13 P14. apply wp_ends.
  eapply (wp_addmul_h2 L t t' _ _ alpha h D X Y A B m); eauto; try (destruct t'; assumption).
  intros m' HY Hk. split; [|exact Hk]. eapply mval_ext; [exact HY|]. intros i j Hi Hj. unfold trows. rewrite P8. reflexivity.
Qed.

(** y <- y + alpha A x for the hermitian matrix [A] whose lower half is represented by the H2-matrix *)
Theorem C48_addevalsymm : forall idx h alpha x y A f g m,
  h2symready m idx h A -> vval m x f -> vval m y g -> vdim x = h2rows h -> vdim y = h2rows h ->
  vblk x < next m -> vblk y < next m -> (forall a, inh2b h a -> fst a < next m) -> disj (inh2b h) (inv y) ->
  ends (addevalsymm_h2matrix_avector idx idx alpha h x y) m (fun _ m' =>
    vval m' y (fun i => g i + alpha * sum (h2rows h) (fun j => A i j * f j))%F /\ keeps (inv y) m m').
Proof.
  intros idx h alpha x y A f g m P1 P2 P3 P4 P5 P6 P7 P8 P9. apply wp_ends.
  eapply (wp_h2_symm L idx h _ _ alpha x y A f g m); eauto. intros m' Hy Hk. rewrite P4 in Hy. split; [exact Hy|exact Hk].
Qed.
End C48.

(** ** Examples *)
Example C48_addmul_hyps : let m := mem_of xhm2 in let X := Mat 10 0 1 1 3 true in let Y := Mat 12 0 3 3 1 true in
  h2rep (cbmat m) m xh xhD /\ h2strict xh /\ cbready m (h2_rb xh) /\ cbready m (h2_cb xh) /\
  mval m X (mof xhm2 X) /\ mwf Y /\ mval m Y (mof xhm2 Y) /\ mcols X = h2rows xh /\ mrows Y = h2cols xh /\ mcols Y = mrows X /\
  mblk X < next m /\ mblk Y < next m /\ (forall a, inh2b xh a -> fst a < next m) /\ disj (inh2b xh) (inm Y).
Proof.
  cbv zeta. pose proof C33_hyps as H. cbv zeta in H. destruct H as ((_ & _ & P1 & P2) & _ & _ & _ & _ & _ & _ & P3 & P4).
  split; [exact xh_rep|]. split; [exact xh_strict|]. split; [exact P1|]. split; [exact P2|].
  split; [apply mval_of; reflexivity|]. split; [unfold mwf; cbn; lia|]. split; [apply mval_of; reflexivity|].
  do 3 (split; [reflexivity|]). do 2 (split; [cbn; lia|]). split; [exact P3|].
  intros a Ha (i & j & Hi & Hj & ->). cbn in Hi, Hj. apply (P4 _ Ha). exists i. split; [exact Hi|]. destruct j; [|lia]. unfold ma, va; cbn. f_equal. lia.
Qed.
(** One entry of a product, computed by the program. *)
Example C48_addmul_value :
  match run (addmul_h2matrix_amatrix_amatrix (gq 0 2) true xh true (Mat 10 0 1 1 3 true) (Mat 12 0 3 3 1 true)) (mem_of xhm2) with
  | Ok (_, m') => get m' (12, 1)
  | Err _ => Free
  end = Val (mof xhm2 (Mat 12 0 3 3 1 true) 1 0 + gq 0 2 * sum 3 (fun k => tr true xhD 1 k * tr true (mof xhm2 (Mat 10 0 1 1 3 true)) k 0))%F.
Proof. vm_compute. reflexivity. Qed.

(** A hermitian H2-matrix: the strict upper half contains blocks that do not fit. *)
Definition xs11b : h2matrix QcO := H2 xc11 xc10 None (Some (Mat 15 0 1 1 1 true)) None 0 0 1.
Definition xs11 : h2matrix QcO := H2 xc1 xc1 None None (Some [xh11a; xs11b; xh11c; xh11d]) 2 2 5.
Definition xs : h2matrix QcO := H2 xc xc None None (Some [xh00; xh10; xh01; xs11]) 2 2 11.
Definition xsD (p q : nat) : GQf :=
  match p, q with 2, 1 => gq 1 1 | 0, S _ => gq 9 9 | 1, 2 => gq 9 9 | _, _ => xhD p q end.
Definition xsA (i j : nat) : GQf := herm_of xsD (nth i [1; 2; 0] 0) (nth j [1; 2; 0] 0).
Lemma xs_low : h2low (cbmat (mem_of xhm2)) (mem_of xhm2) xs xsD.
Proof.
  assert (P : forall i s, nth_error [xc0; xc1] i = Some s -> part_of xc 2 i s) by (intros i s H; right; split; [reflexivity|exact H]).
  assert (P1 : forall i s, nth_error [xc10; xc11] i = Some s -> part_of xc1 2 i s) by (intros i s H; right; split; [reflexivity|exact H]).
  assert (F : forall b v f, nth_error xhm2 b = Some [v] -> f 0 0 = v -> mval (mem_of xhm2) (Mat b 0 1 1 1 true) f).
  { intros b v f Hb E i j Hi Hj. cbn in Hi, Hj. replace i with 0 by lia. replace j with 0 by lia. rewrite E. unfold ma. cbn [mblk moff mld].
    do 21 (destruct b as [|b]; [first [discriminate Hb|injection Hb as <-; reflexivity]|]). destruct b; discriminate Hb. }
  apply (h2low_super _ _ _ _ _ 2 11 (fun i => nth i [1; 2] 0)); try reflexivity; try lia.
  - intros [|[|i]] [|[|j]] s Hi Hj Hs; try lia; cbn in Hs; injection Hs as <-; cbn [xh00 xh01 xh10 xs11 h2_rb h2_cb];
      (split; [reflexivity|]); (split; [reflexivity|]); split; apply P; reflexivity.
  - intros [|[|j]] s Hj Hs; try lia; cbn in Hs; injection Hs as <-.
    + apply h2low_f; try reflexivity. intros p q Hpq. cbn in Hpq. replace p with 0 by lia. replace q with 0 by lia. reflexivity.
    + apply (h2low_super _ _ _ _ _ 2 5 (fun _ => 1)); try reflexivity; try lia.
      * intros [|[|i]] [|[|j]] s Hi' Hj' Hs; try lia; cbn in Hs; injection Hs as <-; cbn [xh11a xs11b xh11c xh11d h2_rb h2_cb];
          (split; [reflexivity|]); (split; [reflexivity|]); split; apply P1; reflexivity.
      * intros [|[|j]] s Hj' Hs; try lia; cbn in Hs; injection Hs as <-;
          (apply h2low_f; try reflexivity; intros p q Hpq; cbn in Hpq; replace p with 0 by lia; replace q with 0 by lia; reflexivity).
      * intros [|[|i]] [|j] s Hij Hs; try lia. cbn in Hs; injection Hs as <-. split; [apply h2strict_f; reflexivity|]. split; [constructor|].
        apply h2rep_f; try reflexivity. eapply F; reflexivity.
  - intros [|[|i]] [|j] s Hij Hs; try lia. cbn in Hs; injection Hs as <-.
    pose proof xh_strict as Hst. inversion Hst as [| | |? ? ? ? ? ? Hst']; subst. destruct (Hst' 1 0 xh10 ltac:(lia) ltac:(lia) eq_refl) as (_ & _ & Hs10).
    split; [exact Hs10|]. split.
    + constructor. intros s [<-|[<-|[]]]; constructor.
    + pose proof xh_rep as Hr. inversion Hr as [| | |? ? ? ? ? ? hs ws ? Q1 Q2 Q3 Q4 Q5 Q6 Q7]; subst.
      specialize (Q7 1 0 xh10 ltac:(lia) ltac:(lia) eq_refl).
      destruct (Q6 0 0 xh00 ltac:(lia) ltac:(lia) eq_refl) as (E1 & _). cbn in E1.
      eapply h2rep_ext; [exact Q7|reflexivity|]. intros p q Hp Hq. cbn [nsum]. rewrite <- E1. cbn in Hp, Hq.
      destruct p as [|[|p]]; [| |lia]; (destruct q as [|q]; [|lia]); reflexivity.
Qed.
Example C48_addevalsymm_hyps : let m := mem_of xhm2 in let x := Vec 10 0 3 true in let y := Vec 12 0 3 true in
  h2symready m xcidx xs xsA /\ vval m x (vof xhm2 x) /\ vval m y (vof xhm2 y) /\ vdim x = h2rows xs /\ vdim y = h2rows xs /\
  vblk x < next m /\ vblk y < next m /\ (forall a, inh2b xs a -> fst a < next m) /\ disj (inh2b xs) (inv y).
Proof.
  cbv zeta. pose proof C33_hyps as H. cbv zeta in H.
  destruct H as ((( gr & gc & _) & _ & P1 & P2) & V1 & V2 & E1 & E2 & B1 & B2 & P3 & P4).
  assert (Sub : forall a, inh2b xs a -> inh2b xh a).
  { assert (Lf : forall (s : h2matrix QcO) b, h2_son s = None -> inh2 s b -> exists A, (h2_u s = Some A \/ h2_f s = Some A) /\ inm A b).
    { intros s b Hs H. inversion H; subst; [eauto|eauto|congruence]. }
    assert (Sn : forall (s : h2matrix QcO) b l, h2_son s = Some l -> h2_u s = None -> h2_f s = None -> inh2 s b -> exists t, In t l /\ inh2 t b).
    { intros s b l Hs Hu Hf H. inversion H; subst; [congruence|congruence|]. rewrite Hs in H0. injection H0 as <-. eauto. }
    intros a [H|H]; [|right; exact H]. left. eapply Sn in H; [|reflexivity..]. destruct H as (t & Ht & H).
    cbn in Ht. destruct Ht as [<-|[<-|[<-|[<-|[]]]]]; try (eapply inh2_son; [reflexivity| |exact H]; cbn; auto; fail).
    eapply Sn in H; [|reflexivity..]. destruct H as (t & Ht & H).
    destruct Ht as [<-|[<-|[<-|[<-|[]]]]]; try (eapply (inh2_son _ _ xh11); [reflexivity|cbn; auto 6|eapply inh2_son; [reflexivity| |exact H]; cbn; auto 6]; fail).
    apply Lf in H; [|reflexivity]. destruct H as (A & [HA|HA] & Hin); [discriminate HA|]. injection HA as <-.
    eapply (inh2_son _ _ xh00); [reflexivity|cbn; auto|]. eapply inh2_f; [reflexivity|exact Hin]. }
  split; [|do 2 (split; [assumption|]); do 2 (split; [reflexivity|]); do 2 (split; [assumption|]); split; [intros a Ha; apply P3, Sub, Ha|intros a Ha; apply P4, Sub, Ha]].
  split; [|split; assumption]. exists xcip, xsD. split; [|split; [exact xs_low|]].
  - split; [|split].
    + intros [|[|[|i]]] Hi; try reflexivity. cbn in Hi; lia.
    + intros [|[|[|i]]] Hi; cbn; cbn in Hi; lia.
    + intros [|[|[|i]]] [|[|[|j]]] Hi Hj; cbn; intros; try reflexivity; try discriminate; cbn in Hi, Hj; lia.
  - intros [|[|[|i]]] [|[|[|j]]] Hi Hj; try reflexivity; cbn in Hi, Hj; lia.
Qed.
Example C48_addevalsymm_value :
  match run (addevalsymm_h2matrix_avector xcidx xcidx (gq 2 1) xs (Vec 10 0 3 true) (Vec 12 0 3 true)) (mem_of xhm2) with
  | Ok (_, m') => get m' (va (Vec 12 0 3 true) 0)
  | Err _ => Free
  end = Val (vof xhm2 (Vec 12 0 3 true) 0 + gq 2 1 * sum 3 (fun j => xsA 0 j * vof xhm2 (Vec 10 0 3 true) j))%F.
Proof. vm_compute. reflexivity. Qed.

(** ** Refutation: zero blocks in hermitian H2-matrices
    All conditions of the general product hold for [xh], see [C33_hyps], and [xh] is structured like
    [xs].  But one of the blocks below the diagonal is a leaf without matrices, and the symmetric
    product stops there. *)
Theorem C48_symm_zero_refuted :
  h2ready (mem_of xhm2) xcidx xcidx xh xhA /\ h2_son xh11 = Some [xh11a; xh11b; xh11c; xh11d] /\ h2_u xh11b = None /\ h2_f xh11b = None /\ h2_son xh11b = None /\
  fails (addevalsymm_h2matrix_avector xcidx xcidx (gq 1 0) xh (Vec 10 0 3 true) (Vec 12 0 3 true)) (mem_of xhm2) EAssert.
Proof.
  split; [pose proof C33_hyps as H; cbv zeta in H; apply H|]. do 4 (split; [reflexivity|]). vm_compute. reflexivity.
Qed.

(** ** Refutation: products from the left
    [addmul_amatrix_h2matrix_amatrix] should add alpha op(X) op(H) to [Y].  For bases with sons it
    stops in an assertion, whether the factors are transposed or not.  For a leaf it uses conj(alpha)
    instead of alpha. *)
Definition xl : h2matrix QcO := xh00.
Theorem C48_addmul_left_refuted : let m := mem_of xhm2 in
  (h2rep (cbmat m) m xh xhD /\ h2strict xh /\ cbready m (h2_rb xh) /\ cbready m (h2_cb xh) /\
   forall xt ht : bool, let X := if xt then Mat 10 0 3 3 1 true else Mat 10 0 1 1 3 true in let Y := Mat 12 0 1 1 3 true in
     mval m X (mof xhm2 X) /\ mwf Y /\ mval m Y (mof xhm2 Y) /\
     fails (addmul_amatrix_h2matrix_amatrix (gq 1 0) xt X ht xh Y) m EAssert) /\
  (h2rep (cbmat m) m xl xhD /\ h2strict xl /\ cbready m (h2_rb xl) /\ cbready m (h2_cb xl) /\
   let X := Mat 10 0 1 1 1 true in let Y := Mat 12 0 1 1 1 true in
   mval m X (mof xhm2 X) /\ mwf Y /\ mval m Y (mof xhm2 Y) /\
   match run (addmul_amatrix_h2matrix_amatrix (gq 0 1) false X false xl Y) m with
   | Ok (_, m') => get m' (ma Y 0 0) <> Val (mof xhm2 Y 0 0 + gq 0 1 * (mof xhm2 X 0 0 * xhD 0 0))%F /\
                   get m' (ma Y 0 0) = Val (mof xhm2 Y 0 0 + fconj (gq 0 1) * (mof xhm2 X 0 0 * xhD 0 0))%F
   | Err _ => False
   end).
Proof.
  cbv zeta. pose proof C48_addmul_hyps as H. cbv zeta in H. destruct H as (P1 & P2 & P3 & P4 & _). split.
  - do 4 (split; [assumption|]). intros [|] [|]; (split; [apply mval_of; reflexivity|]); (split; [unfold mwf; cbn; lia|]); (split; [apply mval_of; reflexivity|]); vm_compute; reflexivity.
  - assert (R : cbready (mem_of xhm2) xc0).
    { destruct P3 as (O1 & O2 & O3). split; [|split].
      - apply (cbok_son _ _ O1). cbn; auto.
      - intros o r c Hc. cbn in Hc. destruct Hc as [E|[]]. injection E as <- <- <-. reflexivity.
      - intros a Ha. apply O3. eapply incb_son; [|exact Ha]. cbn; auto. }
    split; [|split; [apply h2strict_f; reflexivity|split; [exact R|split; [exact R|]]]].
    + pose proof P1 as Hr. inversion Hr as [| | |? ? ? ? ? ? hs ws ? Q1 Q2 Q3 Q4 Q5 Q6 Q7]; subst. specialize (Q7 0 0 xh00 ltac:(lia) ltac:(lia) eq_refl). exact Q7.
    + split; [apply mval_of; reflexivity|]. split; [unfold mwf; cbn; lia|]. split; [apply mval_of; reflexivity|]. vm_compute. split; [intros H; discriminate H|reflexivity].
Qed.

Print Assumptions C48_addmul.
Print Assumptions C48_addevalsymm.
Print Assumptions C48_symm_zero_refuted.
Print Assumptions C48_addmul_left_refuted.
