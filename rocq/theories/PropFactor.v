(** * Property C18: triangular and diagonal matrices *)
From Coq Require Import Arith Lia List Bool ZArith Ring.
From Verif Require Import Fld Inst Prog View Spec Loop Factor FactorSpec FactorP FactorP2 FactorP3 FactorP4.
Import ListNotations.

(** In all statements [pval m A (intri lower unit) f] says that only the entries of
    the triangle are known to be initialised: the functions read no others. *)
Section C18.
Context {K : fops} (L : field_laws K).
Implicit Types (m : mem K) (A B C X : mat) (x : vec).

Theorem C18_triangularsolve_amatrix_avector : forall (lower unit t : bool) A x f b m,
  pval m A (intri lower unit) f -> vval m x b ->
  disj (inp A (intri lower unit)) (inv x) ->
  mrows A <= vdim x -> mcols A <= vdim x ->
  (unit = true \/ forall i, i < Nat.min (mrows A) (mcols A) -> f i i <> f0) ->
  ends (triangularsolve_amatrix_avector lower unit t A x) m (fun _ m' =>
    exists y : nat -> K, vval m' x y /\
      (forall i, i < Nat.min (mrows A) (mcols A) ->
         mvec (Nat.min (mrows A) (mcols A)) (tr t (tripart lower unit f)) y i = b i) /\
      (forall i, Nat.min (mrows A) (mcols A) <= i -> i < vdim x -> y i = b i) /\
      keeps (inv x) m m').
Proof.
  intros; apply wp_ends; eapply (wp_triangularsolve_amatrix_avector L); unfold rdok, wrok; eauto 10.
Qed.

Theorem C18_triangularsolve_amatrix : forall (lower unit t : bool) A (xt : bool) X f b m,
  mwf X -> pval m A (intri lower unit) f -> mval m X b ->
  disj (inp A (intri lower unit)) (inm X) ->
  Nat.min (mrows A) (mcols A) <= (if xt then mcols X else mrows X) ->
  (unit = true \/ forall i, i < Nat.min (mrows A) (mcols A) -> f i i <> f0) ->
  ends (triangularsolve_amatrix lower unit t A xt X) m (fun _ m' =>
    exists Y : nat -> nat -> K, mval m' X Y /\
      (forall i k, i < Nat.min (mrows A) (mcols A) -> k < (if xt then mrows X else mcols X) ->
         mmul (Nat.min (mrows A) (mcols A)) (tr t (tripart lower unit f)) (tr xt Y) i k
         = tr xt b i k) /\
      (forall i k, Nat.min (mrows A) (mcols A) <= i -> i < (if xt then mcols X else mrows X) ->
         k < (if xt then mrows X else mcols X) -> tr xt Y i k = tr xt b i k) /\
      keeps (inm X) m m').
Proof.
  intros; apply wp_ends; eapply (wp_triangularsolve_amatrix L); unfold rdok, wrok; eauto 10.
Qed.

(** Evaluation; the matrix may be rectangular. *)
Theorem C18_triangulareval_amatrix_avector : forall (lower unit t : bool) A x f g m,
  pval m A (intri lower unit) f -> vval m x g ->
  disj (inp A (intri lower unit)) (inv x) ->
  mrows A <= vdim x -> mcols A <= vdim x ->
  ends (triangulareval_amatrix_avector lower unit t A x) m (fun _ m' =>
    vval m' x (fun i => if i <? (if t then mcols A else mrows A)
       then mvec (if t then mrows A else mcols A) (tr t (tripart lower unit f)) g i else g i) /\
    keeps (inv x) m m').
Proof.
  intros; apply wp_ends; eapply (wp_triangulareval_amatrix_avector (fl_ring K L)); unfold rdok, wrok; eauto 10.
Qed.

Theorem C18_triangulareval_amatrix : forall (lower unit t : bool) A (xt : bool) X f g m,
  mwf X -> pval m A (intri lower unit) f -> mval m X g ->
  disj (inp A (intri lower unit)) (inm X) ->
  mrows A <= (if xt then mcols X else mrows X) -> mcols A <= (if xt then mcols X else mrows X) ->
  ends (triangulareval_amatrix lower unit t A xt X) m (fun _ m' =>
    exists Y : nat -> nat -> K, mval m' X Y /\
      (forall i k, i < (if t then mcols A else mrows A) -> k < (if xt then mrows X else mcols X) ->
         tr xt Y i k
         = mmul (if t then mrows A else mcols A) (tr t (tripart lower unit f)) (tr xt g) i k) /\
      (forall i k, (if t then mcols A else mrows A) <= i -> i < (if xt then mcols X else mrows X) ->
         k < (if xt then mrows X else mcols X) -> tr xt Y i k = tr xt g i k) /\
      keeps (inm X) m m').
Proof.
  intros; apply wp_ends; eapply (wp_triangulareval_amatrix (fl_ring K L)); unfold rdok, wrok; eauto 10.
Qed.

(** Solving and evaluating are inverse to each other. *)
Theorem C18_solve_eval : forall (lower unit t : bool) A x f b m,
  pval m A (intri lower unit) f -> vval m x b ->
  disj (inp A (intri lower unit)) (inv x) ->
  mrows A = mcols A -> mrows A <= vdim x ->
  (unit = true \/ forall i, i < mrows A -> f i i <> f0) ->
  ends (triangularsolve_amatrix_avector lower unit t A x ;;;
        triangulareval_amatrix_avector lower unit t A x) m
    (fun _ m' => vval m' x b /\ keeps (inv x) m m').
Proof.
  intros lower unit t A x f b m HA Hx Hd E Hn Hf. apply wp_ends.
  assert (EM : Nat.min (mrows A) (mcols A) = mrows A) by lia.
  apply wp_bind. eapply (wp_triangularsolve_amatrix_avector L); unfold rdok, wrok; eauto; [lia|rewrite EM; exact Hf|].
  intros y m1 H1 H2 Hy Hk. rewrite EM in H1, H2.
  eapply (wp_triangulareval_amatrix_avector (fl_ring K L)) with (g := y); unfold rdok, wrok; eauto; [|lia|].
  { eapply pval_keeps; eassumption. }
  intros m2 Hm2 Hk2. split; [|eapply keeps_trans; eassumption].
  eapply vval_ext; [exact Hm2|]. intros i Hi; cbv beta. unfold oprows, opcols.
  replace (if t then mcols A else mrows A) with (mrows A) by (destruct t; lia).
  replace (if t then mrows A else mcols A) with (mrows A) by (destruct t; lia).
  destruct (Nat.ltb_spec i (mrows A)); auto.
Qed.

Theorem C18_eval_solve : forall (lower unit t : bool) A x f b m,
  pval m A (intri lower unit) f -> vval m x b ->
  disj (inp A (intri lower unit)) (inv x) ->
  mrows A = mcols A -> mrows A <= vdim x ->
  (unit = true \/ forall i, i < mrows A -> f i i <> f0) ->
  ends (triangulareval_amatrix_avector lower unit t A x ;;;
        triangularsolve_amatrix_avector lower unit t A x) m
    (fun _ m' => vval m' x b /\ keeps (inv x) m m').
Proof.
  intros lower unit t A x f b m HA Hx Hd E Hn Hf. apply wp_ends.
  assert (EM : Nat.min (mrows A) (mcols A) = mrows A) by lia.
  apply wp_bind.
  eapply (wp_triangulareval_amatrix_avector (fl_ring K L)); unfold rdok, wrok; eauto; [lia|].
  intros m1 Hm1 Hk1. unfold oprows, opcols in Hm1.
  replace (if t then mcols A else mrows A) with (mrows A) in Hm1 by (destruct t; lia).
  replace (if t then mrows A else mcols A) with (mrows A) in Hm1 by (destruct t; lia).
  eapply (wp_triangularsolve_amatrix_avector L); unfold rdok, wrok; eauto;
    [eapply pval_keeps; eassumption|lia|rewrite EM; exact Hf|].
  intros y m2 H1 H2 Hy Hk2. rewrite EM in H1, H2. split; [|eapply keeps_trans; eassumption].
  eapply vval_ext; [exact Hy|]. intros i Hi.
  destruct (Nat.lt_ge_cases i (mrows A)) as [Hi'|Hi'].
  - refine (tri_unique L (negb (xorb lower t)) (mrows A) (tr t (tripart lower unit f)) y b _ _ _ i Hi').
    + intros k j _ _ H. apply (T_zero L). destruct (xorb lower t); exact H.
    + apply (T_diag L). exact Hf.
    + intros k Hk. rewrite H1 by exact Hk. destruct (Nat.ltb_spec k (mrows A)); [reflexivity|lia].
  - rewrite H2 by assumption. destruct (Nat.ltb_spec i (mrows A)); [lia|reflexivity].
Qed.

(** Diagonal matrices.  [xt] transposes [X] without conjugation, as documented. *)
Theorem C18_diagsolve_amatrix_avector : forall (t : bool) A x f b m,
  pval m A eq f -> vval m x b -> disj (inp A eq) (inv x) ->
  Nat.min (mrows A) (mcols A) <= vdim x ->
  (forall i, i < Nat.min (mrows A) (mcols A) -> f i i <> f0) ->
  ends (diagsolve_amatrix_avector t A x) m (fun _ m' =>
    exists y : nat -> K, vval m' x y /\
      (forall i, i < Nat.min (mrows A) (mcols A) ->
         mvec (Nat.min (mrows A) (mcols A)) (tr t (diagpart f)) y i = b i) /\
      (forall i, Nat.min (mrows A) (mcols A) <= i -> i < vdim x -> y i = b i) /\
      keeps (inv x) m m').
Proof.
  intros; apply wp_ends; eapply (wp_diagsolve_amatrix_avector L); unfold rdok, wrok; eauto 10.
Qed.

Theorem C18_diagsolve_amatrix : forall (t : bool) A (xt : bool) X f b m,
  mwf X -> pval m A eq f -> mval m X b -> disj (inp A eq) (inm X) ->
  Nat.min (mrows A) (mcols A) <= (if xt then mcols X else mrows X) ->
  (forall i, i < Nat.min (mrows A) (mcols A) -> f i i <> f0) ->
  ends (diagsolve_amatrix t A xt X) m (fun _ m' =>
    exists Y : nat -> nat -> K, mval m' X Y /\
      (forall i k, i < Nat.min (mrows A) (mcols A) -> k < (if xt then mrows X else mcols X) ->
         mmul (Nat.min (mrows A) (mcols A)) (tr t (diagpart f)) (transp xt Y) i k
         = transp xt b i k) /\
      (forall i k, Nat.min (mrows A) (mcols A) <= i -> i < (if xt then mcols X else mrows X) ->
         k < (if xt then mrows X else mcols X) -> transp xt Y i k = transp xt b i k) /\
      keeps (inm X) m m').
Proof.
  intros; apply wp_ends; eapply (wp_diagsolve_amatrix L); unfold rdok, wrok; eauto 10.
Qed.

Theorem C18_diageval_amatrix_avector : forall (t : bool) A x f g m,
  pval m A eq f -> vval m x g -> disj (inp A eq) (inv x) -> mcols A <= vdim x ->
  ends (diageval_amatrix_avector t A x) m (fun _ m' =>
    vval m' x (fun i => if i <? Nat.min (mrows A) (mcols A)
      then mvec (Nat.min (mrows A) (mcols A)) (tr t (diagpart f)) g i else g i) /\
    keeps (inv x) m m').
Proof.
  intros; apply wp_ends; eapply (wp_diageval_amatrix_avector (fl_ring K L)); unfold rdok, wrok; eauto 10.
Qed.

Theorem C18_diageval_amatrix : forall (t : bool) A (xt : bool) X f g m,
  mwf X -> pval m A eq f -> mval m X g -> disj (inp A eq) (inm X) ->
  Nat.min (mrows A) (mcols A) <= (if xt then mcols X else mrows X) ->
  ends (diageval_amatrix t A xt X) m (fun _ m' =>
    exists Y : nat -> nat -> K, mval m' X Y /\
      (forall i k, i < Nat.min (mrows A) (mcols A) -> k < (if xt then mrows X else mcols X) ->
         transp xt Y i k
         = mmul (Nat.min (mrows A) (mcols A)) (tr t (diagpart f)) (transp xt g) i k) /\
      (forall i k, Nat.min (mrows A) (mcols A) <= i -> i < (if xt then mcols X else mrows X) ->
         k < (if xt then mrows X else mcols X) -> transp xt Y i k = transp xt g i k) /\
      keeps (inm X) m m').
Proof.
  intros; apply wp_ends; eapply (wp_diageval_amatrix (fl_ring K L)); unfold rdok, wrok; eauto 10.
Qed.

(** A diagonal matrix given by a vector of real numbers. *)
Theorem C18_diageval_realavector_amatrix : forall alpha (t : bool) (a : vec) (xt : bool) X f g m,
  mwf X -> vval m a f -> mval m X g -> disj (inv a) (inm X) ->
  (forall i, i < vdim a -> fconj (f i) = f i) ->
  (if xt then mcols X else mrows X) <= vdim a ->
  ends (diageval_realavector_amatrix alpha t a xt X) m (fun _ m' =>
    exists Y : nat -> nat -> K, mval m' X Y /\
      (forall i k, i < (if xt then mcols X else mrows X) -> k < (if xt then mrows X else mcols X) ->
         tr xt Y i k = (alpha * f i * tr xt g i k)%F) /\
      keeps (inm X) m m').
Proof.
  intros; apply wp_ends; eapply (wp_diageval_realavector_amatrix (fl_ring K L)); unfold rdok, wrok; eauto 10.
Qed.

(** C <- C + alpha op(T_A) op(T_B) *)
Theorem C18_triangularaddmul_amatrix : forall alpha (alo at_ : bool) A (blo bt : bool) B C fa fb f m,
  mwf C -> pval m A (intri alo false) fa -> pval m B (intri blo false) fb -> mval m C f ->
  disj (inp A (intri alo false)) (inm C) -> disj (inp B (intri blo false)) (inm C) ->
  mrows C = (if at_ then mcols A else mrows A) ->
  (if at_ then mrows A else mcols A) = (if bt then mcols B else mrows B) ->
  mcols C = (if bt then mrows B else mcols B) ->
  ends (triangularaddmul_amatrix alpha alo at_ A blo bt B C) m (fun _ m' =>
    mval m' C (fun i k => f i k + alpha *
      mmul (if at_ then mrows A else mcols A)
        (tr at_ (tripart alo false fa)) (tr bt (tripart blo false fb)) i k)%F /\
    keeps (inm C) m m').
Proof.
  intros; apply wp_ends; eapply (wp_triangularaddmul_amatrix (fl_ring K L)); unfold rdok, wrok; eauto 10.
Qed.

(** Copies of the lower and the upper triangle.  Rows (columns, respectively) of the
    target that the source does not have keep their values in the first (second) case,
    and the remaining ones are filled with zeros. *)
Theorem C18_copy_lower_amatrix : forall A (unit : bool) B f g m,
  mwf B -> pval m A (intri true unit) f -> mval m B g -> disj (inp A (intri true unit)) (inm B) ->
  ends (copy_lower_amatrix A unit B) m (fun _ m' =>
    mval m' B (fun i j => if i <? Nat.min (mrows A) (mrows B) then
        if j <? mcols A then tripart true unit f i j else f0 else g i j) /\
    keeps (inm B) m m').
Proof. intros; apply wp_ends; eapply wp_copy_lower_amatrix; unfold rdok, wrok; eauto. Qed.

Theorem C18_copy_upper_amatrix : forall A (unit : bool) B f g m,
  mwf B -> pval m A (intri false unit) f -> mval m B g -> disj (inp A (intri false unit)) (inm B) ->
  ends (copy_upper_amatrix A unit B) m (fun _ m' =>
    mval m' B (fun i j => if j <? mcols A then
        if i <? mrows A then tripart false unit f i j else f0 else g i j) /\
    keeps (inm B) m m').
Proof. intros; apply wp_ends; eapply wp_copy_upper_amatrix; unfold rdok, wrok; eauto. Qed.
End C18.

(** ** Examples *)

(** A 3 x 2 lower triangle stored in an array whose upper entry is not initialised,
    a right-hand side with two columns and a vector, with complex entries. *)
Definition fbl : list (list GQf) :=
  [[gq 2 1; gq 1 0; gq 0 3;  gq 9 9; gq 1 (-1); gq 4 0];
   [gq 1 0; gq 0 1; gq 2 2;  gq 3 0; gq 1 1; gq 5 0];
   [gq 1 2; gq 3 4; gq 5 6]].
Definition fm : mem GQf :=
  Mem (fun a => if ((fst a =? 0) && (snd a =? 3))%nat then Undef else raw (mem_of fbl) a) 3.
Definition fA : mat := Mat 0 0 3 3 2 true.
Definition fX : mat := Mat 1 0 3 3 2 true.
Definition fv : vec := Vec 2 0 3 true.

Lemma fm_pval (unit : bool) : pval fm fA (intri true unit) (mof fbl fA).
Proof.
  intros i j Hi Hj Ho. cbn in Hi, Hj.
  assert (E : i = 0 /\ j = 0 \/ i = 1 /\ j = 0 \/ i = 2 /\ j = 0 \/ i = 1 /\ j = 1 \/ i = 2 /\ j = 1).
  { unfold intri in Ho. lia. }
  repeat (destruct E as [[-> ->]|E]; [reflexivity|]). destruct E as [-> ->]; reflexivity.
Qed.

Example C18_hyps :
  mwf fX /\ pval fm fA (intri true false) (mof fbl fA) /\ get fm (ma fA 0 1) = Undef /\
  vval fm fv (vof fbl fv) /\ mval fm fX (mof fbl fX) /\
  disj (inp fA (intri true false)) (inv fv) /\ disj (inp fA (intri true false)) (inm fX) /\
  mrows fA <= vdim fv /\ mcols fA <= vdim fv /\ mrows fA <= mrows fX /\
  (forall i, i < Nat.min (mrows fA) (mcols fA) -> mof fbl fA i i <> f0).
Proof.
  repeat match goal with |- _ /\ _ => split end.
  - unfold mwf; cbn; lia.
  - apply fm_pval.
  - reflexivity.
  - intros i Hi. cbn in Hi. do 3 (destruct i as [|i]; [reflexivity|]). lia.
  - intros i j Hi Hj. cbn in Hi, Hj.
    do 3 (destruct i as [|i]; [do 2 (destruct j as [|j]; [reflexivity|]); lia|]). lia.
  - apply disj_inp, disj_mv_blk. discriminate.
  - apply disj_inp, disj_mm_blk. discriminate.
  - cbn; lia.
  - cbn; lia.
  - cbn; lia.
  - intros i Hi. cbn in Hi. do 2 (destruct i as [|i]; [discriminate|]). lia.
Qed.

(** The computed solution for a 2 x 2 view of it, both modes. *)
Definition fA2 : mat := Mat 0 0 3 2 2 false.
Example C18_solve_value :
  match run (triangularsolve_amatrix_avector true false true fA2 fv) fm with
  | Ok (_, m') => (get m' (va fv 0), get m' (va fv 1))
  | _ => (Free, Free)
  end = (Val (fdiv (fsub (gq 1 2) (fdiv (gq 3 4) (gq 1 1))) (gq 2 (-1)))%F,
         Val (fdiv (gq 3 4) (gq 1 1))%F).
Proof. vm_compute. reflexivity. Qed.

Print Assumptions C18_triangularsolve_amatrix_avector.
Print Assumptions C18_triangularsolve_amatrix.
Print Assumptions C18_triangulareval_amatrix_avector.
Print Assumptions C18_triangulareval_amatrix.
Print Assumptions C18_solve_eval.
Print Assumptions C18_eval_solve.
Print Assumptions C18_diagsolve_amatrix_avector.
Print Assumptions C18_diagsolve_amatrix.
Print Assumptions C18_diageval_amatrix_avector.
Print Assumptions C18_diageval_amatrix.
Print Assumptions C18_diageval_realavector_amatrix.
Print Assumptions C18_triangularaddmul_amatrix.
Print Assumptions C18_copy_lower_amatrix.
Print Assumptions C18_copy_upper_amatrix.
