(** * Solving and evaluating with an LR factorization *)
From Coq Require Import Arith NArith Lia List Bool Ring.
From Verif Require Import Fld Prog View Spec Loop Avector AvectorP Amatrix AmatrixP Factor FactorSpec Line
  FactorP FactorP2 FactorP3 FactorP4 Lr LrP.

Section LR2.
Context {K : fops} (L : field_laws K).
Add Ring KringL2 : (rl_ring K (fl_ring K L)).
Implicit Types (m : mem K) (R W : addr -> Prop) (A : mat) (x : vec).
Notation lo := (tripart true true).
Notation up := (tripart false false).

(** The adjoint of a product. *)
Lemma tr_mmul n (A B : nat -> nat -> K) i j :
  tr true (mmul n A B) i j = mmul n (tr true B) (tr true A) i j.
Proof.
  unfold mmul. cbn [tr]. rewrite (sum_conj (fl_ring K L)). apply sum_ext. intros k _. rewrite (rl_conj_mul K (fl_ring K L)). ring.
Qed.

(** [F] holds an LR factorization of [f]. *)
Definition lrfact (n : nat) (F f : nat -> nat -> K) : Prop :=
  forall i j, i < n -> j < n -> mmul n (lo F) (up F) i j = f i j.

Lemma lrfact_tr n F f : lrfact n F f ->
  forall i j, i < n -> j < n -> mmul n (tr true (up F)) (tr true (lo F)) i j = tr true f i j.
Proof. intros H i j Hi Hj. rewrite <- tr_mmul. cbn [tr]. rewrite H by assumption. reflexivity. Qed.

Definition lrfirst (t : bool) (F : nat -> nat -> K) := if t then tr true (up F) else lo F.
Definition lrsecond (t : bool) (F : nat -> nat -> K) := if t then tr true (lo F) else up F.

Lemma lrfact_split (t : bool) n F f : lrfact n F f ->
  forall i j, i < n -> j < n -> mmul n (lrfirst t F) (lrsecond t F) i j = tr t f i j.
Proof. intros H. destruct t; [apply lrfact_tr, H|exact H]. Qed.

Lemma wp_lrsolve_amatrix_avector R W (t : bool) A x F f b n m (Q : unit -> mem K -> Prop) :
  mval m A F -> vval m x b -> disj (inm A) (inv x) ->
  rdok R W (inm A) -> wrok W (inv x) ->
  mrows A = n -> mcols A = n -> n <= vdim x ->
  lrfact n F f -> (forall i, i < n -> F i i <> f0) ->
  (forall (y : nat -> K) m', vval m' x y -> (forall i, i < n -> mvec n (tr t f) y i = b i) ->
     (forall i, n <= i -> i < vdim x -> y i = b i) -> keeps (inv x) m m' -> Q tt m') ->
  wp R W (lrsolve_amatrix_avector t A x) m Q.
Proof.
  intros HA Hx Hd Hr Hw E1 E2 Hn Hf HD HQ.
  assert (EM : Nat.min (mrows A) (mcols A) = n) by lia.
  assert (Hp : forall l u, disj (inp A (intri l u)) (inv x)) by (intros; apply disj_inp, Hd).
  assert (Hrp : forall l u, rdok R W (inp A (intri l u))).
  { intros l u a Ha. apply Hr. eapply inp_inm, Ha. }
  assert (HS : wp R W
    (triangularsolve_amatrix_avector (if t then false else true) (if t then false else true) t A x ;;;
     triangularsolve_amatrix_avector (if t then true else false) (if t then true else false) t A x) m Q).
  2:{ unfold lrsolve_amatrix_avector, lrsolve_n_amatrix_avector, lrsolve_t_amatrix_avector.
      destruct t; exact HS. }
  apply wp_bind.
  eapply (wp_triangularsolve_amatrix_avector L) with (f := F); [apply mval_pval, HA|exact Hx|apply Hp|apply Hrp|exact Hw|lia|lia| |].
  { rewrite EM. destruct t; [right; exact HD|left; reflexivity]. }
  rewrite EM. intros y1 m1 H1 H1' Hy1 Hk1.
  eapply (wp_triangularsolve_amatrix_avector L) with (f := F); [|exact Hy1|apply Hp|apply Hrp|exact Hw|lia|lia| |].
  { apply mval_pval. eapply mval_keeps; eassumption. }
  { rewrite EM. destruct t; [left; reflexivity|right; exact HD]. }
  rewrite EM. intros y2 m2 H2 H2' Hy2 Hk2.
  eapply HQ; [exact Hy2| | |eapply keeps_trans; eassumption].
  2:{ intros i Hi Hi'. rewrite H2', H1' by assumption. reflexivity. }
  intros i Hi.
  transitivity (mvec n (mmul n (lrfirst t F) (lrsecond t F)) y2 i).
  { apply mvec_ext; [|reflexivity]. intros j Hj. symmetry. apply lrfact_split; assumption. }
  rewrite (mvec_mmul L).
  rewrite <- (H1 i Hi). unfold lrfirst, lrsecond.
  destruct t; (apply mvec_ext; [reflexivity|exact H2]).
Qed.

Lemma wp_lrsolve_amatrix R W A X F f b n m (Q : unit -> mem K -> Prop) :
  mwf X -> mval m A F -> mval m X b -> disj (inm A) (inm X) ->
  rdok R W (inm A) -> wrok W (inm X) ->
  mrows A = n -> mcols A = n -> n <= mrows X ->
  lrfact n F f -> (forall i, i < n -> F i i <> f0) ->
  (forall (Y : nat -> nat -> K) m', mval m' X Y ->
     (forall i k, i < n -> k < mcols X -> mmul n f Y i k = b i k) ->
     (forall i k, n <= i -> i < mrows X -> k < mcols X -> Y i k = b i k) -> keeps (inm X) m m' -> Q tt m') ->
  wp R W (lrsolve_amatrix A X) m Q.
Proof.
  intros HX HA Hx Hd Hr Hw E1 E2 Hn Hf HD HQ.
  assert (EM : Nat.min (mrows A) (mcols A) = n) by lia.
  assert (Hp : forall l u, disj (inp A (intri l u)) (inm X)) by (intros; apply disj_inp, Hd).
  assert (Hrp : forall l u, rdok R W (inp A (intri l u))).
  { intros l u a Ha. apply Hr. eapply inp_inm, Ha. }
  unfold lrsolve_amatrix. apply wp_bind.
  eapply (wp_triangularsolve_amatrix L) with (f := F); [exact HX|apply mval_pval, HA|exact Hx|apply Hp|apply Hrp|exact Hw|unfold lnn; lia|left; reflexivity|].
  rewrite EM. unfold lnn, nln. intros y1 m1 H1 H1' Hy1 Hk1. cbn [tr] in H1, H1'.
  eapply (wp_triangularsolve_amatrix L) with (f := F); [exact HX| |exact Hy1|apply Hp|apply Hrp|exact Hw|unfold lnn; lia| |].
  { apply mval_pval. eapply mval_keeps; eassumption. }
  { rewrite EM. right; exact HD. }
  rewrite EM. unfold lnn, nln. intros y2 m2 H2 H2' Hy2 Hk2. cbn [tr] in H2, H2'.
  eapply HQ; [exact Hy2| | |eapply keeps_trans; eassumption].
  2:{ intros i k Hi Hi' Hk. rewrite H2', H1' by assumption. reflexivity. }
  intros i k Hi Hk. change (mvec n f (fun j => y2 j k) i = b i k).
  transitivity (mvec n (mmul n (lo F) (up F)) (fun j => y2 j k) i).
  { apply mvec_ext; [|reflexivity]. intros j Hj. symmetry. apply Hf; assumption. }
  rewrite (mvec_mmul L). rewrite <- (H1 i k Hi Hk).
  change (mmul n (lo F) y1 i k) with (mvec n (lo F) (fun j => y1 j k) i).
  apply mvec_ext; [reflexivity|]. intros j Hj. apply (H2 j k Hj Hk).
Qed.

Lemma wp_lreval_amatrix_avector R W (t : bool) A x F f g n m (Q : unit -> mem K -> Prop) :
  mval m A F -> vval m x g -> disj (inm A) (inv x) ->
  rdok R W (inm A) -> wrok W (inv x) ->
  mrows A = n -> mcols A = n -> n <= vdim x ->
  lrfact n F f ->
  (forall m', vval m' x (fun i => if i <? n then mvec n (tr t f) g i else g i) ->
     keeps (inv x) m m' -> Q tt m') ->
  wp R W (lreval_amatrix_avector t A x) m Q.
Proof.
  intros HA Hx Hd Hr Hw E1 E2 Hn Hf HQ.
  assert (Hp : forall l u, disj (inp A (intri l u)) (inv x)) by (intros; apply disj_inp, Hd).
  assert (Hrp : forall l u, rdok R W (inp A (intri l u))).
  { intros l u a Ha. apply Hr. eapply inp_inm, Ha. }
  assert (HS : wp R W
    (triangulareval_amatrix_avector (if t then true else false) (if t then true else false) t A x ;;;
     triangulareval_amatrix_avector (if t then false else true) (if t then false else true) t A x) m Q).
  2:{ unfold lreval_amatrix_avector, lreval_n_amatrix_avector, lreval_t_amatrix_avector.
      destruct t; exact HS. }
  assert (Er : oprows t A = n) by (unfold oprows; destruct t; assumption).
  assert (Ec : opcols t A = n) by (unfold opcols; destruct t; assumption).
  apply wp_bind.
  eapply (wp_triangulareval_amatrix_avector (fl_ring K L)) with (f := F); [apply mval_pval, HA|exact Hx|apply Hp|apply Hrp|exact Hw|lia|lia|].
  rewrite Er, Ec. intros m1 Hm1 Hk1.
  eapply (wp_triangulareval_amatrix_avector (fl_ring K L)) with (f := F); [|exact Hm1|apply Hp|apply Hrp|exact Hw|lia|lia|].
  { apply mval_pval. eapply mval_keeps; eassumption. }
  rewrite Er, Ec. intros m2 Hm2 Hk2.
  apply HQ; [|eapply keeps_trans; eassumption].
  eapply vval_ext; [exact Hm2|]. intros i Hi; cbv beta.
  destruct (Nat.ltb_spec i n) as [Hi'|Hi']; [|reflexivity].
  transitivity (mvec n (mmul n (lrfirst t F) (lrsecond t F)) g i).
  2:{ apply mvec_ext; [|reflexivity]. intros j Hj. apply lrfact_split; assumption. }
  rewrite (mvec_mmul L). unfold lrfirst, lrsecond.
  destruct t; (apply mvec_ext; [reflexivity|]); intros j Hj; bsplit; reflexivity.
Qed.
End LR2.
