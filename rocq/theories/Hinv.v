(** * Inversion and triangular parts of H-matrices, Library/harith.c

    [svd] and [rank] are the parameters of truncation (see Htrunc.v).  H-matrices that are changed
    are returned, as in Hadd.v. *)
From Coq Require Import Arith Lia List Bool.
From Verif Require Import Fld Ord Prog Arr View Cluster Block Avector Amatrix Factor Chol Qr Rkmatrix Htrunc Hmatrix Harith Hadd Hmul Hfac.
Import ListNotations.

Section Hinv.
Context {K : fops} {G : ofops} (O : qops K).
Context (svd : mat -> vec -> mat -> mat -> prog K unit) (rank : vec -> prog K nat).
Local Notation hmx := (hmatrix G).

(** ** Inversion *)

(** Replaces the submatrix [n] of [l] by zero *)
Definition clear_at (l : list hmx) (n : nat) : prog K (list hmx) :=
  b <- sget (Some l) n ;;
  b <- clear_hmatrix b ;;
  Ret (lupd l n b).
(** Adds [alpha] times the product of [x] and [y] to the submatrix [n] of [l] *)
Definition addmul_at (alpha : K) (x y : hmx) (l : list hmx) (n : nat) : prog K (list hmx) :=
  b <- sget (Some l) n ;;
  b <- addmul_hmatrix O svd rank alpha false false x y b ;;
  Ret (lupd l n b).

(** Library/harith.c:3624-3649: one step of the first loop in [invert_hmatrix].  [la] are the
    submatrices of [a], [lw] those of [work]; [go] inverts the diagonal block. *)
Definition invdown (sons k : nat) (go : hmx -> hmx -> prog K (hmx * hmx)) (s : list hmx * list hmx) : prog K (list hmx * list hmx) :=
  let (la, lw) := s in
  akk <- sget (Some la) (k + k * sons) ;;
  wkk <- sget (Some lw) (k + k * sons) ;;
  aw <- go akk wkk ;;
  let la := lupd la (k + k * sons) (fst aw) in
  let lw := lupd lw (k + k * sons) (snd aw) in
  lw <- forS (k + 1) (sons - (k + 1)) (fun i (lw : list hmx) =>
    lw <- clear_at lw (i + k * sons) ;;
    aik <- sget (Some la) (i + k * sons) ;;
    akk <- sget (Some la) (k + k * sons) ;;
    addmul_at 1 aik akk lw (i + k * sons)) lw ;;
  lw <- forS (k + 1) (sons - (k + 1)) (fun j (lw : list hmx) =>
    lw <- clear_at lw (k + j * sons) ;;
    akk <- sget (Some la) (k + k * sons) ;;
    akj <- sget (Some la) (k + j * sons) ;;
    addmul_at 1 akk akj lw (k + j * sons)) lw ;;
  la <- forS (k + 1) (sons - (k + 1)) (fun j (la : list hmx) =>
    forS (k + 1) (sons - (k + 1)) (fun i (la : list hmx) =>
      wik <- sget (Some lw) (i + k * sons) ;;
      akj <- sget (Some la) (k + j * sons) ;;
      addmul_at (- (1))%F wik akj la (i + j * sons)) la) la ;;
  Ret (la, lw).

(** Library/harith.c:3651-3674: one step of the second loop in [invert_hmatrix] *)
Definition invup (sons k : nat) (lw la : list hmx) : prog K (list hmx) :=
  la <- forS (k + 1) (sons - (k + 1)) (fun i (la : list hmx) =>
    la <- clear_at la (i + k * sons) ;;
    forS (k + 1) (sons - (k + 1)) (fun j (la : list hmx) =>
      aij <- sget (Some la) (i + j * sons) ;;
      wjk <- sget (Some lw) (j + k * sons) ;;
      addmul_at (- (1))%F aij wjk la (i + k * sons)) la) la ;;
  la <- forS (k + 1) (sons - (k + 1)) (fun j (la : list hmx) =>
    la <- clear_at la (k + j * sons) ;;
    forS (k + 1) (sons - (k + 1)) (fun i (la : list hmx) =>
      wki <- sget (Some lw) (k + i * sons) ;;
      aij <- sget (Some la) (i + j * sons) ;;
      addmul_at (- (1))%F wki aij la (k + j * sons)) la) la ;;
  forS (k + 1) (sons - (k + 1)) (fun i (la : list hmx) =>
    aki <- sget (Some la) (k + i * sons) ;;
    wik <- sget (Some lw) (i + k * sons) ;;
    addmul_at (- (1))%F aki wik la (k + k * sons)) la.

(** Library/harith.c:3604-3676 [invert_hmatrix].  The functions for the diagonal blocks are found by
    recursion over [shape], which has the same structure as [a]. *)
Fixpoint invert_h (shape a work : hmx) : prog K (hmx * hmx) :=
  passert (cp_eqb (hm_rc a) (hm_cc a)) ;;;
  passert (cp_eqb (hm_rc a) (hm_rc work)) ;;;
  passert (cp_eqb (hm_cc a) (hm_cc work)) ;;;
  passert (hm_rsons a =? hm_rsons work) ;;;
  passert (hm_csons a =? hm_csons work) ;;;
  match hm_f a with
  | Some f => qrinvert_amatrix O f ;;; Ret (a, work)
  | None =>
      match hm_son a with
      | None => Fail EAssert
      | Some la =>
          passert (hm_rsons a =? hm_csons a) ;;;
          let sons := hm_rsons a in
          lw <- match hm_son work with Some lw => Ret lw | None => Fail ENull end ;;
          let rec := match shape with HM _ _ _ _ (Some ls) _ _ _ => Some (map invert_h ls) | _ => None end in
          s <- forS 0 sons (fun k (s : list hmx * list hmx) =>
            go <- sget rec (k + k * sons) ;;
            invdown sons k go s) (la, lw) ;;
          la <- forS 0 sons (fun k (la : list hmx) => invup sons (sons - 1 - k) (snd s) la) (fst s) ;;
          Ret (set_sons a la, set_sons work (snd s))
      end
  end.
Definition invert_hmatrix (a work : hmx) : prog K (hmx * hmx) := invert_h a a work.

(** ** Triangular parts *)

(** The loops over the submatrices in [clone_lower_hmatrix] (Library/harith.c:3704-3717, [lower])
    and [clone_upper_hmatrix] (Library/harith.c:3747-3760): [rec] contains the functions for the
    diagonal blocks, [l] the submatrices of [a].  Zero blocks use [rc] and [cc], the clusters of [a]. *)
Definition clonetri_sons (lower : bool) (rec : option (list (prog K hmx))) (rc cc : cptr G) (sons : nat) (l : list hmx) : prog K (list hmx) :=
  let zero i j := ri <- lift (cp_son rc i) ;; cj <- lift (cp_son cc j) ;; new_rk_hmatrix ri cj 0 in
  let full i j := s <- sget (Some l) (i + j * sons) ;; clone_hmatrix s in
  forS 0 sons (fun j (lb : list hmx) =>
    lb <- forS 0 j (fun i (lb : list hmx) =>
      b1 <- (if lower then zero i j else full i j) ;; Ret (lb ++ [b1])) lb ;;
    go <- sget rec (j + j * sons) ;;
    b1 <- go ;;
    forS (j + 1) (sons - (j + 1)) (fun i (lb : list hmx) =>
      b1 <- (if lower then full i j else zero i j) ;; Ret (lb ++ [b1])) (lb ++ [b1])) [].

(** Library/harith.c:3682-3723 [clone_lower_hmatrix] ([lower]) and 3725-3766 [clone_upper_hmatrix] *)
Fixpoint clone_tri_hmatrix (lower aunit : bool) (a : hmx) : prog K hmx :=
  match a with
  | HM rc cc r f son rsons csons desc =>
  passert (cp_eqb rc cc) ;;;
  match f with
  | Some f =>
      b <- new_full_hmatrix rc cc ;;
      match hm_f b with
      | Some g => (if lower then copy_lower_amatrix f aunit g else copy_upper_amatrix f aunit g) ;;; Ret b
      | None => Fail ENull
      end
  | None =>
      match son with
      | None => Fail EAssert
      | Some l =>
          passert (rsons =? csons) ;;;
          l' <- clonetri_sons lower (Some (map (clone_tri_hmatrix lower aunit) l)) rc cc rsons l ;;
          update_hmatrix (new_super_hmatrix rc cc rsons rsons l')
      end
  end
  end.
Definition clone_lower_hmatrix : bool -> hmx -> prog K hmx := clone_tri_hmatrix true.
Definition clone_upper_hmatrix : bool -> hmx -> prog K hmx := clone_tri_hmatrix false.
End Hinv.
