(** * Solvers for the Cholesky and LDL^T decompositions *)
From Coq Require Import Arith NArith Lia List Bool Ring.
From Verif Require Import Fld Prog View Spec Loop Avector AvectorP Amatrix AmatrixP Factor FactorSpec Line
  FactorP FactorP2 FactorP3 FactorP4 Lr LrP LrP2 Chol CholSpec CholP CholP2.

Section CHOL3.
Context {K : fops} (L : field_laws K).
Add Ring KringC3 : (rl_ring K (fl_ring K L)).
Implicit Types (m : mem K) (R W : addr -> Prop) (A X : mat) (x : vec).
Notation low := (intri true false).
Notation lo := (tripart true false).
Notation lu := (tripart true true).

Lemma pval_mono m A (ok ok' : nat -> nat -> Prop) (f : nat -> nat -> K) :
  (forall i j, ok' i j -> ok i j) -> pval m A ok f -> pval m A ok' f.
Proof. intros Hs H i j Hi Hj Ho. apply H; auto. Qed.
Lemma inp_mono A (ok ok' : nat -> nat -> Prop) a :
  (forall i j, ok' i j -> ok i j) -> inp A ok' a -> inp A ok a.
Proof. intros Hs (i & j & Hi & Hj & Ho & ->). exists i, j. auto. Qed.
Lemma disj_mono (P P' : addr -> Prop) (W : addr -> Prop) : (forall a, P' a -> P a) -> disj P W -> disj P' W.
Proof. intros Hs H a Ha. apply H, Hs, Ha. Qed.
Lemma rdok_mono R W (P P' : addr -> Prop) : (forall a, P' a -> P a) -> rdok R W P -> rdok R W P'.
Proof. intros Hs H a Ha. apply H, Hs, Ha. Qed.

Lemma lu_low i j : intri true true i j -> low i j.
Proof. unfold intri. intros [[_ E]|E]; [discriminate|right; exact E]. Qed.
Lemma eq_low i j : i = j -> low i j.
Proof. intros ->. left. auto. Qed.

(** [F] holds a Cholesky resp. LDL^T factorization of [f]. *)
Definition cholfact (n : nat) (F f : nat -> nat -> K) : Prop :=
  forall i j, i < n -> j < n -> mmul n (lo F) (tr true (lo F)) i j = f i j.
Definition ldltfact (n : nat) (F f : nat -> nat -> K) : Prop :=
  forall i j, i < n -> j < n -> mmul n (lu F) (mmul n (diagpart F) (tr true (lu F))) i j = f i j.

Lemma wp_cholsolve_amatrix_avector R W A x F f b n m (Q : unit -> mem K -> Prop) :
  pval m A low F -> vval m x b -> disj (inp A low) (inv x) ->
  rdok R W (inp A low) -> wrok W (inv x) ->
  mrows A = n -> mcols A = n -> n <= vdim x ->
  cholfact n F f -> (forall i, i < n -> F i i <> f0) ->
  (forall (y : nat -> K) m', vval m' x y -> (forall i, i < n -> mvec n f y i = b i) ->
     (forall i, n <= i -> i < vdim x -> y i = b i) -> keeps (inv x) m m' -> Q tt m') ->
  wp R W (cholsolve_amatrix_avector A x) m Q.
Proof.
  intros HA Hx Hd Hr Hw E1 E2 Hn Hf HD HQ.
  assert (EM : Nat.min (mrows A) (mcols A) = n) by lia.
  unfold cholsolve_amatrix_avector. apply wp_bind.
  eapply (wp_triangularsolve_amatrix_avector L) with (f := F); [exact HA|exact Hx|exact Hd|exact Hr|exact Hw|lia|lia|rewrite EM; right; exact HD|].
  rewrite EM. intros y1 m1 H1 H1' Hy1 Hk1.
  eapply (wp_triangularsolve_amatrix_avector L) with (f := F); [|exact Hy1|exact Hd|exact Hr|exact Hw|lia|lia|rewrite EM; right; exact HD|].
  { eapply pval_keeps; eassumption. }
  rewrite EM. intros y2 m2 H2 H2' Hy2 Hk2.
  eapply HQ; [exact Hy2| | |eapply keeps_trans; eassumption].
  2:{ intros i Hi Hi'. rewrite H2', H1' by assumption. reflexivity. }
  intros i Hi.
  transitivity (mvec n (mmul n (lo F) (tr true (lo F))) y2 i).
  { apply mvec_ext; [|reflexivity]. intros j Hj. symmetry. apply Hf; assumption. }
  rewrite (mvec_mmul L). rewrite <- (H1 i Hi).
  apply mvec_ext; [reflexivity|exact H2].
Qed.

Lemma wp_cholsolve_amatrix R W A X F f b n m (Q : unit -> mem K -> Prop) :
  mwf X -> pval m A low F -> mval m X b -> disj (inp A low) (inm X) ->
  rdok R W (inp A low) -> wrok W (inm X) ->
  mrows A = n -> mcols A = n -> n = mrows X ->
  cholfact n F f -> (forall i, i < n -> F i i <> f0) ->
  (forall (Y : nat -> nat -> K) m', mval m' X Y ->
     (forall i k, i < n -> k < mcols X -> mmul n f Y i k = b i k) -> keeps (inm X) m m' -> Q tt m') ->
  wp R W (cholsolve_amatrix A X) m Q.
Proof.
  intros HX HA Hx Hd Hr Hw E1 E2 Hn Hf HD HQ.
  assert (EM : Nat.min (mrows A) (mcols A) = n) by lia.
  unfold cholsolve_amatrix. wstep. apply wp_bind.
  eapply (wp_triangularsolve_amatrix L) with (f := F); [exact HX|exact HA|exact Hx|exact Hd|exact Hr|exact Hw|unfold lnn; lia|rewrite EM; right; exact HD|].
  rewrite EM. unfold lnn, nln. intros y1 m1 H1 H1' Hy1 Hk1. cbn [tr] in H1, H1'.
  eapply (wp_triangularsolve_amatrix L) with (f := F); [exact HX| |exact Hy1|exact Hd|exact Hr|exact Hw|unfold lnn; lia|rewrite EM; right; exact HD|].
  { eapply pval_keeps; eassumption. }
  rewrite EM. unfold lnn, nln. intros y2 m2 H2 H2' Hy2 Hk2.
  eapply HQ; [exact Hy2| |eapply keeps_trans; eassumption].
  intros i k Hi Hk. change (mvec n f (fun j => y2 j k) i = b i k).
  transitivity (mvec n (mmul n (lo F) (tr true (lo F))) (fun j => y2 j k) i).
  { apply mvec_ext; [|reflexivity]. intros j Hj. symmetry. apply Hf; assumption. }
  rewrite (mvec_mmul L). rewrite <- (H1 i k Hi Hk).
  change (mmul n (lo F) y1 i k) with (mvec n (lo F) (fun j => y1 j k) i).
  apply mvec_ext; [reflexivity|]. intros j Hj. apply (H2 j k Hj Hk).
Qed.

Lemma wp_choleval_amatrix_avector R W A x F f g n m (Q : unit -> mem K -> Prop) :
  pval m A low F -> vval m x g -> disj (inp A low) (inv x) ->
  rdok R W (inp A low) -> wrok W (inv x) ->
  mrows A = n -> mcols A = n -> n <= vdim x ->
  cholfact n F f ->
  (forall m', vval m' x (fun i => if i <? n then mvec n f g i else g i) ->
     keeps (inv x) m m' -> Q tt m') ->
  wp R W (choleval_amatrix_avector A x) m Q.
Proof.
  intros HA Hx Hd Hr Hw E1 E2 Hn Hf HQ.
  unfold choleval_amatrix_avector. apply wp_bind.
  eapply (wp_triangulareval_amatrix_avector (fl_ring K L)) with (f := F); [exact HA|exact Hx|exact Hd|exact Hr|exact Hw|lia|lia|].
  unfold oprows, opcols. rewrite E1, E2. intros m1 Hm1 Hk1.
  eapply (wp_triangulareval_amatrix_avector (fl_ring K L)) with (f := F); [|exact Hm1|exact Hd|exact Hr|exact Hw|lia|lia|].
  { eapply pval_keeps; eassumption. }
  unfold oprows, opcols. rewrite E1, E2. intros m2 Hm2 Hk2.
  apply HQ; [|eapply keeps_trans; eassumption].
  eapply vval_ext; [exact Hm2|]. intros i Hi; cbv beta.
  destruct (Nat.ltb_spec i n) as [Hi'|Hi']; [|reflexivity].
  transitivity (mvec n (mmul n (lo F) (tr true (lo F))) g i).
  2:{ apply mvec_ext; [|reflexivity]. intros j Hj. apply Hf; assumption. }
  rewrite (mvec_mmul L).
  apply mvec_ext; [reflexivity|]; intros j Hj; bsplit; reflexivity.
Qed.

Lemma wp_ldltsolve_amatrix_avector R W A x F f b n m (Q : unit -> mem K -> Prop) :
  pval m A low F -> vval m x b -> disj (inp A low) (inv x) ->
  rdok R W (inp A low) -> wrok W (inv x) ->
  mrows A = n -> mcols A = n -> n <= vdim x ->
  ldltfact n F f -> (forall i, i < n -> F i i <> f0) ->
  (forall (y : nat -> K) m', vval m' x y -> (forall i, i < n -> mvec n f y i = b i) ->
     (forall i, n <= i -> i < vdim x -> y i = b i) -> keeps (inv x) m m' -> Q tt m') ->
  wp R W (ldltsolve_amatrix_avector A x) m Q.
Proof.
  intros HA Hx Hd Hr Hw E1 E2 Hn Hf HD HQ.
  assert (EM : Nat.min (mrows A) (mcols A) = n) by lia.
  assert (Hd1 : disj (inp A (intri true true)) (inv x)).
  { eapply disj_mono; [|exact Hd]. intros a. apply inp_mono, lu_low. }
  assert (Hd2 : disj (inp A eq) (inv x)).
  { eapply disj_mono; [|exact Hd]. intros a. apply inp_mono, eq_low. }
  assert (Hr1 : rdok R W (inp A (intri true true))).
  { eapply rdok_mono; [|exact Hr]. intros a. apply inp_mono, lu_low. }
  assert (Hr2 : rdok R W (inp A eq)).
  { eapply rdok_mono; [|exact Hr]. intros a. apply inp_mono, eq_low. }
  unfold ldltsolve_amatrix_avector. apply wp_bind.
  eapply (wp_triangularsolve_amatrix_avector L) with (f := F); [eapply pval_mono; [apply lu_low|exact HA]|exact Hx|exact Hd1|exact Hr1|exact Hw|lia|lia|left; reflexivity|].
  rewrite EM. intros y1 m1 H1 H1' Hy1 Hk1. apply wp_bind.
  assert (HA1 : pval m1 A low F) by (eapply pval_keeps; eassumption).
  eapply (wp_diagsolve_amatrix_avector L) with (f := F); [eapply pval_mono; [apply eq_low|exact HA1]|exact Hy1|exact Hd2|exact Hr2|exact Hw|lia|rewrite EM; exact HD|].
  rewrite EM. intros y2 m2 H2 H2' Hy2 Hk2.
  assert (HA2 : pval m2 A low F) by (eapply pval_keeps; eassumption).
  eapply (wp_triangularsolve_amatrix_avector L) with (f := F); [eapply pval_mono; [apply lu_low|exact HA2]|exact Hy2|exact Hd1|exact Hr1|exact Hw|lia|lia|left; reflexivity|].
  rewrite EM. intros y3 m3 H3 H3' Hy3 Hk3.
  eapply HQ; [exact Hy3| | |do 2 (eapply keeps_trans; [eassumption|]); exact Hk3].
  2:{ intros i Hi Hi'. rewrite H3', H2', H1' by assumption. reflexivity. }
  intros i Hi.
  transitivity (mvec n (mmul n (lu F) (mmul n (diagpart F) (tr true (lu F)))) y3 i).
  { apply mvec_ext; [|reflexivity]. intros j Hj. symmetry. apply Hf; assumption. }
  rewrite (mvec_mmul L). rewrite <- (H1 i Hi).
  apply mvec_ext; [reflexivity|]. intros j Hj. rewrite (mvec_mmul L). rewrite <- (H2 j Hj).
  apply mvec_ext; [reflexivity|exact H3].
Qed.

Lemma wp_ldltsolve_amatrix R W A X F f b n m (Q : unit -> mem K -> Prop) :
  mwf X -> pval m A low F -> mval m X b -> disj (inp A low) (inm X) ->
  rdok R W (inp A low) -> wrok W (inm X) ->
  mrows A = n -> mcols A = n -> n = mrows X ->
  ldltfact n F f -> (forall i, i < n -> F i i <> f0) ->
  (forall (Y : nat -> nat -> K) m', mval m' X Y ->
     (forall i k, i < n -> k < mcols X -> mmul n f Y i k = b i k) -> keeps (inm X) m m' -> Q tt m') ->
  wp R W (ldltsolve_amatrix A X) m Q.
Proof.
  intros HX HA Hx Hd Hr Hw E1 E2 Hn Hf HD HQ.
  assert (EM : Nat.min (mrows A) (mcols A) = n) by lia.
  assert (Hd1 : disj (inp A (intri true true)) (inm X)).
  { eapply disj_mono; [|exact Hd]. intros a. apply inp_mono, lu_low. }
  assert (Hd2 : disj (inp A eq) (inm X)).
  { eapply disj_mono; [|exact Hd]. intros a. apply inp_mono, eq_low. }
  assert (Hr1 : rdok R W (inp A (intri true true))).
  { eapply rdok_mono; [|exact Hr]. intros a. apply inp_mono, lu_low. }
  assert (Hr2 : rdok R W (inp A eq)).
  { eapply rdok_mono; [|exact Hr]. intros a. apply inp_mono, eq_low. }
  unfold ldltsolve_amatrix. wstep. apply wp_bind.
  eapply (wp_triangularsolve_amatrix L) with (f := F); [exact HX|eapply pval_mono; [apply lu_low|exact HA]|exact Hx|exact Hd1|exact Hr1|exact Hw|unfold lnn; lia|left; reflexivity|].
  rewrite EM. unfold lnn, nln. intros y1 m1 H1 H1' Hy1 Hk1. cbn [tr] in H1, H1'. apply wp_bind.
  assert (HA1 : pval m1 A low F) by (eapply pval_keeps; eassumption).
  eapply (wp_diagsolve_amatrix L) with (f := F); [exact HX|eapply pval_mono; [apply eq_low|exact HA1]|exact Hy1|exact Hd2|exact Hr2|exact Hw|unfold lnn; lia|rewrite EM; exact HD|].
  rewrite EM. unfold lnn, nln. intros y2 m2 H2 H2' Hy2 Hk2. cbn [tr transp] in H2, H2'.
  assert (HA2 : pval m2 A low F) by (eapply pval_keeps; eassumption).
  eapply (wp_triangularsolve_amatrix L) with (f := F); [exact HX|eapply pval_mono; [apply lu_low|exact HA2]|exact Hy2|exact Hd1|exact Hr1|exact Hw|unfold lnn; lia|left; reflexivity|].
  rewrite EM. unfold lnn, nln. intros y3 m3 H3 H3' Hy3 Hk3.
  eapply HQ; [exact Hy3| |do 2 (eapply keeps_trans; [eassumption|]); exact Hk3].
  intros i k Hi Hk. change (mvec n f (fun j => y3 j k) i = b i k).
  transitivity (mvec n (mmul n (lu F) (mmul n (diagpart F) (tr true (lu F)))) (fun j => y3 j k) i).
  { apply mvec_ext; [|reflexivity]. intros j Hj. symmetry. apply Hf; assumption. }
  rewrite (mvec_mmul L). rewrite <- (H1 i k Hi Hk).
  change (mmul n (lu F) y1 i k) with (mvec n (lu F) (fun j => y1 j k) i).
  apply mvec_ext; [reflexivity|]. intros j Hj. rewrite (mvec_mmul L). rewrite <- (H2 j k Hj Hk).
  change (mmul n (diagpart F) (transp false y2) j k) with (mvec n (diagpart F) (fun j => y2 j k) j).
  apply mvec_ext; [reflexivity|]. intros l Hl. apply (H3 l k Hl Hk).
Qed.
End CHOL3.
