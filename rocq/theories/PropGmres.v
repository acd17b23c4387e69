(** * Property C40: GMRES *)
From Coq Require Import Arith NArith Lia List Bool ZArith.
From Coq Require Rdefinitions R_sqrt Lra.
From Verif Require Import Fld Inst Prog View Spec Loop Avector Amatrix Chol CholSpec Qr QrSpec Krylov KrylovSpec Ord OrdInst CholInst QrInst
  Gmres GmresP GmresInst.
Import ListNotations.

(** Real numbers: for entries [a <> 0] and [b] of different magnitude, [findapply_givens] finds a
    rotation with cosine [c] and sine [s] that eliminates [b], applies it to the two entries, and
    returns an encoding from which [apply_givens] applies the same rotation to any other pair. *)
Theorem C40_givens_partial : forall (theta : Rf) (p q : addr) (a b : Rf) (m : mem Rf),
  p <> q -> get m p = Val a -> get m q = Val b -> a <> f0 -> (a * a)%F <> (b * b)%F ->
  exists c s : Rf, (c * c + s * s)%F = f1 /\ (c * b - s * a)%F = f0 /\
    ends (findapply_givens (Rq theta) p q) m (fun rho m' =>
      get m' p = Val (c * a + s * b)%F /\ get m' q = Val f0 /\ keeps (fun x => x = p \/ x = q) m m' /\
      forall (p' q' : addr) (u v : Rf) (m1 : mem Rf), p' <> q' -> get m1 p' = Val u -> get m1 q' = Val v ->
        ends (apply_givens (Rq theta) rho p' q') m1 (fun _ m2 =>
          get m2 p' = Val (c * u + s * v)%F /\ get m2 q' = Val (c * v - s * u)%F /\ keeps (fun x => x = p' \/ x = q') m1 m2)).
Proof.
  intros theta p q a b m N Hp Hq Ha Hab. pose proof (givens_real theta a b Ha Hab) as G.
  destruct (givens_find (Rq theta) a b) as [[c s] rho] eqn:E. destruct G as (G1 & G2 & G3).
  exists c, s. split; [exact G1|]. split; [exact G2|]. apply wp_ends.
  eapply wp_findapply; [exact N|exact Hp|exact Hq|exact I|exact I|]. intros m'. rewrite E. intros E1 E2 E3.
  split; [exact E1|]. split; [exact E2|]. split; [exact E3|].
  intros p' q' u v m1 N' Hp' Hq'. apply wp_ends. eapply wp_apply_givens; [exact N'|exact Hp'|exact Hq'|exact I|exact I|].
  intros m2. rewrite G3. auto.
Qed.

(** For entries of equal magnitude, the second entry is overwritten by zero although no rotation
    is applied: the norm of the pair changes. *)
Theorem C40_givens_tie_refuted : forall (theta : Rf) (p q : addr) (m : mem Rf),
  p <> q -> get m p = Val f1 -> get m q = Val f1 ->
  exists a' : Rf, (a' * a' + f0 * f0)%F <> (f1 * f1 + f1 * f1)%F /\
    ends (findapply_givens (Rq theta) p q) m (fun rho m' => get m' p = Val a' /\ get m' q = Val f0).
Proof.
  intros theta p q m N Hp Hq. exists (Rdefinitions.IZR 1 : Rf). split; [cbn; Lra.lra|]. apply wp_ends.
  eapply wp_findapply; [exact N|exact Hp|exact Hq|exact I|exact I|]. intros m'.
  pose proof (tie_find theta) as E. change (@f1 Rf) with (Rdefinitions.IZR 1). rewrite E. intros E1 E2 _.
  split; [rewrite E1; f_equal; cbn; Lra.lra|exact E2].
Qed.

(** For complex entries, the transformation lacks conjugations and is not unitary. *)
Theorem C40_givens_complex_refuted : forall theta : Rdefinitions.R, exists (a b : Cf), 
  forall (p q : addr) (m : mem Cf), p <> q -> get m p = Val a -> get m q = Val b ->
  exists a' : Cf, abssqr a' <> (abssqr a + abssqr b)%F /\
    ends (findapply_givens (Cq theta) p q) m (fun rho m' => get m' p = Val a' /\ get m' q = Val f0).
Proof.
  intros theta. exists gcx2, gcxi. intros p q m N Hp Hq.
  destruct (cx_find theta) as (c & s & rho & E & HN). exists (c * gcx2 + s * gcxi)%F. split; [exact HN|]. apply wp_ends.
  eapply wp_findapply; [exact N|exact Hp|exact Hq|exact I|exact I|]. intros m'. rewrite E. auto.
Qed.

(** ** Accesses outside of the workspace *)

(** Rational numbers with an exact root of [0] and [1]; other roots do not occur below. *)
Definition q01 : qops Qcf :=
  Qops Qcf (Rops Qcf (fun x => x) (fun _ => false) (fun x => negb (@flt QcO f0 x)) (fun x => x))
    (fun x => if @flt QcO x f0 then fopp f1 else f1) (fun x => feqb x f0) (fun x y => @flt QcO y x).

(** A scalar equation [x = 1] with initial guess [0] and space for two Krylov vectors: the first
    step accesses memory beyond the vector [q]. The workspace satisfies all assertions of
    [init_gmres]. *)
Definition gmL : list (list Qcf) := [[qz 1]; [qz 1]; [qz 0]; [qz 0]; [qz 0]; [qz 0; qz 0]; [qz 0; qz 0]].
Definition gmA : mat := Mat 0 0 1 1 1 true.
Definition gmv (k : nat) : vec := Vec k 0 1 true.
Definition gmqr : mat := Mat 5 0 1 1 2 true.
Definition gmtau : vec := Vec 6 0 2 true.
Definition gmev : addeval_t Qcf := fun al u v => addeval_amatrix_avector al gmA u v.
Theorem C40_step_bounds_refuted :
  ends (init_gmres q01 gmev None (gmv 1) (gmv 2) (gmv 3) (gmv 4) None gmqr gmtau) (mem_of gmL) (fun kk _ => kk = Some 0) /\
  fails (bind (init_gmres q01 gmev None (gmv 1) (gmv 2) (gmv 3) (gmv 4) None gmqr gmtau) (fun kk =>
         step_gmres q01 gmev None (gmv 1) (gmv 2) (gmv 3) (gmv 4) kk gmqr gmtau)) (mem_of gmL) EBounds.
Proof. split; [eexists _, _; split; vm_compute; reflexivity|]. vm_compute. reflexivity. Qed.

(** The solver itself runs into this error for this equation. *)
Theorem C40_solve_bounds_refuted :
  fails (solve_gmres_avector q01 gmev (gmv 1) (gmv 2) f0 5 2) (mem_of gmL) EBounds.
Proof. vm_compute. reflexivity. Qed.

(** Without space for a Krylov vector, the solver reads the uninitialised dimension. *)
Theorem C40_solve_uninit_refuted :
  fails (solve_gmres_avector q01 gmev (gmv 1) (gmv 2) f0 5 0) (mem_of gmL) EUninit.
Proof. vm_compute. reflexivity. Qed.

(** ** Examples *)
Example C40_hyps : let m := mem_of [[Rdefinitions.IZR 3 : Rf]; [Rdefinitions.IZR 4 : Rf]] in
  (0, 0) <> (1, 0) /\ get m (0, 0) = Val (Rdefinitions.IZR 3 : Rf) /\ get m (1, 0) = Val (Rdefinitions.IZR 4 : Rf) /\
  (Rdefinitions.IZR 3 : Rf) <> f0 /\ ((Rdefinitions.IZR 3 : Rf) * (Rdefinitions.IZR 3 : Rf))%F <> ((Rdefinitions.IZR 4 : Rf) * (Rdefinitions.IZR 4 : Rf))%F.
Proof. split; [discriminate|]. split; [reflexivity|]. split; [reflexivity|]. exact givens_ex. Qed.

Print Assumptions C40_givens_partial.
Print Assumptions C40_givens_tie_refuted.
Print Assumptions C40_givens_complex_refuted.
Print Assumptions C40_step_bounds_refuted.
Print Assumptions C40_solve_bounds_refuted.
Print Assumptions C40_solve_uninit_refuted.
