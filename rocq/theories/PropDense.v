(** * Properties C14-C17: vectors, dense matrices and views *)
From Coq Require Import Arith Lia List Bool NArith ZArith Ring.
From Verif Require Import Fld Prog View Spec Loop Avector AvectorP Amatrix AmatrixP AmatrixP2.
Import ListNotations.

Ltac w1 lem := intros; apply wp_ends; eapply lem; unfold rdok, wrok; eauto.

(** Concrete memory for the examples: block 0 and 1 hold vectors, block 2 a
    4 x 3 array, block 3 a 3 x 3 array. *)
Definition xbl : list (list Zf) :=
  [[1; 2; 3; 4]; [5; 6; 7; 8; 9]; [1; 2; 3; 4; 5; 6; 7; 8; 9; 10; 11; 12];
   [2; 0; 1; 3; 1; 4; 1; 5; 9]]%Z.
Definition xm : mem Zf := mem_of xbl.
Definition xv : vec := Vec 0 1 3 false.            (* (2,3,4): a sub-vector *)
Definition yv : vec := Vec 1 0 5 true.
Definition yv3 : vec := Vec 1 1 3 true.
Definition xA : mat := Mat 2 1 4 3 3 false.        (* a 3 x 3 sub-matrix of the 4 x 3 array *)
Definition xB : mat := Mat 3 0 3 3 3 true.

(** ** C14: vector kernels *)
Section C14.
Context {K : fops}.
Implicit Types (m : mem K) (x y v w : vec).

Theorem C14_clear_avector : forall v m, valloc m v ->
  ends (clear_avector v) m (fun _ m' => vval m' v (fun _ => f0) /\ keeps (inv v) m m').
Proof. w1 (@wp_clear_avector K). Qed.

Theorem C14_fill_avector : forall v c m, valloc m v ->
  ends (fill_avector v c) m (fun _ m' => vval m' v (fun _ => c) /\ keeps (inv v) m m').
Proof. w1 (@wp_fill_avector K). Qed.

Theorem C14_copy_avector : forall v w f m,
  vval m v f -> valloc m w -> vdim v = vdim w -> disj (inv v) (inv w) ->
  ends (copy_avector v w) m (fun _ m' => vval m' w f /\ keeps (inv w) m m').
Proof. w1 (@wp_copy_avector K). Qed.

Theorem C14_copy_avector_dim : forall v w m, vdim v <> vdim w ->
  fails (copy_avector v w) m EAssert.
Proof.
  intros v w m H. unfold fails, copy_avector. apply Nat.eqb_neq in H. rewrite H. reflexivity.
Qed.

Theorem C14_copy_sub_avector : forall v w f g m,
  vval m v f -> vval m w g -> disj (inv v) (inv w) ->
  ends (copy_sub_avector v w) m (fun _ m' =>
    vval m' w (fun i => if i <? vdim v then f i else g i) /\ keeps (inv w) m m').
Proof. w1 (@wp_copy_sub_avector K). Qed.

Theorem C14_scale_avector : forall alpha v f m, vval m v f ->
  ends (scale_avector alpha v) m (fun _ m' =>
    vval m' v (fun i => f i * alpha)%F /\ keeps (inv v) m m').
Proof. w1 (@wp_scale_avector K). Qed.

Theorem C14_add_avector : forall alpha x y f g m,
  vval m x f -> vval m y g -> vdim x <= vdim y -> disj (inv x) (inv y) ->
  ends (add_avector alpha x y) m (fun _ m' =>
    vval m' y (fun i => if i <? vdim x then g i + alpha * f i else g i)%F /\ keeps (inv y) m m').
Proof. w1 (@wp_add_avector K). Qed.

Theorem C14_dotprod_avector : forall x y f g m,
  vval m x f -> vval m y g -> vdim x = vdim y ->
  ends (dotprod_avector x y) m (fun r m' => r = dot (vdim x) f g /\ m' = m).
Proof. w1 (@wp_dotprod_avector K). Qed.

(** [norm2_avector] returns the square root of the inner product of the vector
    with itself, for whatever function [sq] is used as square root. *)
Theorem C14_norm2_avector : forall sq v f m, vval m v f ->
  ends (norm2_avector sq v) m (fun r m' => r = sq (dot (vdim v) f f) /\ m' = m).
Proof. w1 (@wp_norm2_avector K). Qed.

Theorem C14_init_zero_avector : forall dim m,
  ends (init_zero_avector dim) m (fun v m' =>
    vdim v = dim /\ vblk v = next m /\ vown v = true /\ vval m' v (fun _ => f0) /\
    keeps (fun a => fst a = next m) m m').
Proof.
  intros. apply wp_ends. apply wp_init_zero_avector. intros v m' -> Hv Hk Hn. cbn. auto.
Qed.
End C14.

Example C14_hyps : vval xm xv (vof xbl xv) /\ vval xm yv (vof xbl yv) /\ vval xm yv3 (vof xbl yv3) /\
  vdim xv <= vdim yv /\ vdim xv = vdim yv3 /\ disj (inv xv) (inv yv) /\ disj (inv xv) (inv yv3).
Proof. ex_tac. Qed.
Example C14_add_runs : match run (add_avector (2 : Zf)%Z xv yv) xm with
  | Ok (_, m') => map (fun i => get m' (va yv i)) (seq 0 5) | _ => [] end
  = map Val [9; 12; 15; 8; 9]%Z.
Proof. vm_compute. reflexivity. Qed.

(** ** C15: dense matrix kernels *)
Section C15.
Context {K : fops}.
Implicit Types (m : mem K) (A B C : mat) (x y d l : vec).

Theorem C15_clear_amatrix : forall A m, mwf A -> malloc m A ->
  ends (clear_amatrix A) m (fun _ m' => mval m' A (fun _ _ => f0) /\ keeps (inm A) m m').
Proof. w1 (@wp_clear_amatrix K). Qed.

Theorem C15_identity_amatrix : forall A m, mwf A -> malloc m A ->
  ends (identity_amatrix A) m (fun _ m' => mval m' A idf /\ keeps (inm A) m m').
Proof. w1 (@wp_identity_amatrix K). Qed.

Theorem C15_clear_lower_amatrix : forall A (strict : bool) f m, mwf A -> mval m A f ->
  ends (clear_lower_amatrix A strict) m (fun _ m' =>
    mval m' A (fun i j => if (if strict then j <? i else j <=? i) then f0 else f i j) /\
    keeps (inm A) m m').
Proof. w1 (@wp_clear_lower_amatrix K). Qed.

(** For an upper triangle the guard "at least one row or no columns" is needed
    in the non-strict case; see the refutation below. *)
Theorem C15_clear_upper_amatrix_partial : forall A (strict : bool) f m, mwf A -> mval m A f ->
  strict = true \/ 0 < mrows A \/ mcols A = 0 ->
  ends (clear_upper_amatrix A strict) m (fun _ m' =>
    mval m' A (fun i j => if (if strict then i <? j else i <=? j) then f0 else f i j) /\
    keeps (inm A) m m').
Proof. w1 (@wp_clear_upper_amatrix K). Qed.

(** A matrix with no rows but with columns: the code writes outside its storage. *)
Theorem C15_clear_upper_amatrix_refuted : exists A m, mwf A /\ mval m A (fun _ _ => f0) /\
  fails (clear_upper_amatrix A false) m EBounds.
Proof.
  exists (Mat 0 0 0 0 1 true), (Mem (fun _ : addr => (Free : cell K)) 1).
  repeat split; try (unfold mwf; cbn; lia). intros i j Hi; cbn in Hi; lia.
Qed.

Theorem C15_copy_amatrix : forall (t : bool) A B f m,
  mwf B -> mval m A f -> malloc m B -> disj (inm A) (inm B) ->
  (if t then mcols A else mrows A) = mrows B -> (if t then mrows A else mcols A) = mcols B ->
  ends (copy_amatrix t A B) m (fun _ m' => mval m' B (tr t f) /\ keeps (inm B) m m').
Proof. w1 (@wp_copy_amatrix K). Qed.

Theorem C15_copy_sub_amatrix : forall (t : bool) A B f g m,
  mwf B -> mval m A f -> mval m B g -> disj (inm A) (inm B) ->
  ends (copy_sub_amatrix t A B) m (fun _ m' =>
    mval m' B (fun i j =>
      if (i <? if t then mcols A else mrows A) && (j <? if t then mrows A else mcols A)
      then tr t f i j else g i j) /\ keeps (inm B) m m').
Proof. w1 (@wp_copy_sub_amatrix K). Qed.

(** Column-permuted copy: column [j] of the result is column [p j] of the source. *)
Theorem C15_copy_colpiv_amatrix : forall (t : bool) A p B f m,
  mwf B -> mval m A f -> malloc m B -> disj (inm A) (inm B) ->
  (forall j, j < mcols A -> p j < mcols A) ->
  (if t then mcols A else mrows A) = mrows B -> (if t then mrows A else mcols A) = mcols B ->
  ends (copy_colpiv_amatrix t A p B) m (fun _ m' =>
    mval m' B (tr t (fun i j => f i (p j))) /\ keeps (inm B) m m').
Proof. w1 (@wp_copy_colpiv_amatrix K). Qed.

Theorem C15_scale_amatrix : forall alpha A f m, mwf A -> mval m A f ->
  ends (scale_amatrix alpha A) m (fun _ m' =>
    mval m' A (fun i j => f i j * alpha)%F /\ keeps (inm A) m m').
Proof. w1 (@wp_scale_amatrix K). Qed.

Theorem C15_conjugate_amatrix : forall A f m, mwf A -> mval m A f ->
  ends (conjugate_amatrix A) m (fun _ m' =>
    mval m' A (fun i j => fconj (f i j)) /\ keeps (inm A) m m').
Proof. w1 (@wp_conjugate_amatrix K). Qed.

Theorem C15_add_amatrix : forall alpha (t : bool) A B f g m,
  mwf B -> mval m A f -> mval m B g -> disj (inm A) (inm B) ->
  (if t then mcols A else mrows A) <= mrows B -> (if t then mrows A else mcols A) <= mcols B ->
  ends (add_amatrix alpha t A B) m (fun _ m' =>
    mval m' B (fun i j =>
      if (i <? if t then mcols A else mrows A) && (j <? if t then mrows A else mcols A)
      then (g i j + alpha * tr t f i j)%F else g i j) /\ keeps (inm B) m m').
Proof. w1 (@wp_add_amatrix K). Qed.

Theorem C15_dotprod_amatrix : forall (L : ring_laws K) A B f g m,
  mval m A f -> mval m B g -> mrows A = mrows B -> mcols A = mcols B ->
  ends (dotprod_amatrix A B) m (fun r m' =>
    r = sum (mcols A) (fun j => dot (mrows A) (fun i => f i j) (fun i => g i j)) /\ m' = m).
Proof. w1 (@wp_dotprod_amatrix K). Qed.

Theorem C15_normfrob_amatrix : forall (L : ring_laws K) sq A f m, mval m A f ->
  ends (normfrob_amatrix sq A) m (fun r m' =>
    r = sq (sum (mcols A) (fun j => dot (mrows A) (fun i => f i j) (fun i => f i j))) /\ m' = m).
Proof. w1 (@wp_normfrob_amatrix K). Qed.

Theorem C15_clone_amatrix : forall A f m, mval m A f -> mblk A < next m ->
  ends (clone_amatrix A) m (fun B m' =>
    mrows B = mrows A /\ mcols B = mcols A /\ mblk B = next m /\ mval m' B f /\
    keeps (fun a => fst a = next m) m m').
Proof.
  intros A f m HA Hb. apply wp_ends.
  eapply wp_clone_amatrix; eauto; [intros a Ha; left; exact I|].
  intros B m' -> Hv Hk Hn. cbn. auto.
Qed.

(** The resized matrix holds the old entries where both shapes overlap and zeros
    elsewhere; the old storage is released. *)
Theorem C15_resizecopy_amatrix : forall A rows cols f m,
  mval m A f -> mown A = true -> mblk A < next m -> mld A = mrows A ->
  ends (resizecopy_amatrix A rows cols) m (fun B m' =>
    mrows B = rows /\ mcols B = cols /\ mld B = rows /\ mown B = true /\
    mval m' B (fun i j => if (i <? mrows A) && (j <? mcols A) then f i j else f0) /\
    keeps (fun a => fst a = mblk A \/ fst a = next m) m m').
Proof.
  intros A rows cols f m HA Ho Hb Hld. apply wp_ends.
  eapply wp_resizecopy_amatrix; eauto. intros; repeat split; auto; apply H5.
Qed.

Theorem C15_init_identity_amatrix : forall rows cols m,
  ends (init_identity_amatrix rows cols) m (fun A m' =>
    mrows A = rows /\ mcols A = cols /\ mblk A = next m /\ mval m' A idf /\
    keeps (fun a => fst a = next m) m m').
Proof.
  intros. apply wp_ends. apply wp_init_identity_amatrix. intros A m' -> Hv Hk Hn. cbn. auto.
Qed.

Theorem C15_init_zero_amatrix : forall rows cols m,
  ends (init_zero_amatrix rows cols) m (fun A m' =>
    mrows A = rows /\ mcols A = cols /\ mblk A = next m /\ mval m' A (fun _ _ => f0) /\
    keeps (fun a => fst a = next m) m m').
Proof.
  intros. apply wp_ends. apply wp_init_zero_amatrix. intros A m' -> Hv Hk Hn. cbn. auto.
Qed.

(** [bidiagmul]: [A := A (alpha L)] or [A := (alpha L)^* A]. *)
Theorem C15_bidiagmul_amatrix : forall (L : ring_laws K) alpha (t : bool) A d l f fd fl m,
  mwf A -> mval m A f -> vval m d fd -> vval m l fl ->
  vdim d = (if t then mrows A else mcols A) -> vdim l + 1 = vdim d ->
  disj (inv d) (inm A) -> disj (inv l) (inm A) ->
  let B := fun i j => (alpha * bidiag fd fl i j)%F in
  ends (bidiagmul_amatrix alpha t A d l) m (fun _ m' =>
    mval m' A (if t then mmul (mrows A) (tr true B) f else mmul (mcols A) f B) /\
    keeps (inm A) m m').
Proof.
  intros L alpha t A d l f fd fl m Hw HA Hd Hl H1 H2 H3 H4 B. apply wp_ends.
  eapply (wp_bidiagmul_amatrix L); unfold rdok, wrok; eauto.
  intros m' Hv Hk. split; [|exact Hk]. destruct t; exact Hv.
Qed.

(** [check_ortho] returns [|| I - A^* A ||_F] (or [|| I - A A^* ||_F]) and leaves no
    allocated memory behind. *)
Theorem C15_check_ortho_amatrix : forall (L : ring_laws K) sq (t : bool) A f m,
  mval m A f -> mblk A < next m ->
  let n := if t then mrows A else mcols A in
  let mid := if t then mcols A else mrows A in
  let D := fun i k => (idf i k - mmul mid (tr (negb t) f) (tr t f) i k)%F in
  ends (check_ortho_amatrix sq t A) m (fun r m' =>
    r = sq (sum n (fun j => dot n (fun i => D i j) (fun i => D i j))) /\
    keeps (fun _ => False) m m').
Proof.
  intros L sq t A f m HA Hb n mid D. apply wp_ends.
  eapply (wp_check_ortho_amatrix L); unfold rdok; eauto.
Qed.
End C15.

Example C15_hyps : mwf xA /\ mwf xB /\ mval xm xA (mof xbl xA) /\ mval xm xB (mof xbl xB) /\
  disj (inm xA) (inm xB) /\ mrows xA = mrows xB /\ mcols xA = mcols xB /\
  mown xB = true /\ mblk xB < next xm /\ mld xB = mrows xB /\
  vval xm xv (vof xbl xv) /\ vval xm (Vec 1 0 2 false) (vof xbl (Vec 1 0 2 false)) /\
  vdim xv = mrows xA /\ vdim (Vec 1 0 2 false) + 1 = vdim xv /\ disj (inv xv) (inm xA).
Proof. ex_tac. Qed.

(** ** C16: products *)
Section C16.
Context {K : fops} (L : ring_laws K).
Implicit Types (m : mem K) (A B C : mat) (x y : vec).

(** Both the plain ([t = false]) and the adjoint product. *)
Theorem C16_mvm_amatrix_avector : forall alpha (t : bool) A x y f g h m,
  mval m A f -> vval m x g -> vval m y h ->
  (if t then mrows A else mcols A) <= vdim x -> (if t then mcols A else mrows A) <= vdim y ->
  disj (inm A) (inv y) -> disj (inv x) (inv y) ->
  ends (mvm_amatrix_avector alpha t A x y) m (fun _ m' =>
    vval m' y (fun i => if i <? (if t then mcols A else mrows A)
       then (h i + alpha * mvec (if t then mrows A else mcols A) (tr t f) g i)%F else h i) /\
    keeps (inv y) m m').
Proof. w1 (@wp_mvm_amatrix_avector K). Qed.

Theorem C16_addeval_amatrix_avector : forall alpha A x y f g h m,
  mval m A f -> vval m x g -> vval m y h -> mcols A <= vdim x -> mrows A <= vdim y ->
  disj (inm A) (inv y) -> disj (inv x) (inv y) ->
  ends (addeval_amatrix_avector alpha A x y) m (fun _ m' =>
    vval m' y (fun i => if i <? mrows A then (h i + alpha * mvec (mcols A) f g i)%F else h i) /\
    keeps (inv y) m m').
Proof. w1 (@wp_addeval_amatrix_avector K). Qed.

Theorem C16_addevaltrans_amatrix_avector : forall alpha A x y f g h m,
  mval m A f -> vval m x g -> vval m y h -> mrows A <= vdim x -> mcols A <= vdim y ->
  disj (inm A) (inv y) -> disj (inv x) (inv y) ->
  ends (addevaltrans_amatrix_avector alpha A x y) m (fun _ m' =>
    vval m' y (fun i => if i <? mcols A then (h i + alpha * mvec (mrows A) (tr true f) g i)%F else h i) /\
    keeps (inv y) m m').
Proof. w1 (@wp_addevaltrans_amatrix_avector K). Qed.

Theorem C16_addmul_amatrix : forall alpha (ta tb : bool) A B C f g h m,
  mwf C -> mval m A f -> mval m B g -> mval m C h ->
  disj (inm A) (inm C) -> disj (inm B) (inm C) ->
  (if ta then mcols A else mrows A) <= mrows C ->
  (if tb then mrows B else mcols B) <= mcols C ->
  (if ta then mrows A else mcols A) = (if tb then mcols B else mrows B) ->
  ends (addmul_amatrix alpha ta A tb B C) m (fun _ m' =>
    mval m' C (fun i k =>
      if (i <? if ta then mcols A else mrows A) && (k <? if tb then mrows B else mcols B)
      then (h i k + alpha * mmul (if ta then mrows A else mcols A) (tr ta f) (tr tb g) i k)%F
      else h i k) /\
    keeps (inm C) m m').
Proof. intros; apply wp_ends; eapply (wp_addmul_amatrix L); unfold rdok, wrok; eauto. Qed.
End C16.

Definition xbl16 : list (list Zf) := xbl ++ [repeat 1%Z 9].
Definition xC : mat := Mat 4 0 3 3 3 true.
Example C16_hyps : mwf xC /\ mval (mem_of xbl16) xA (mof xbl16 xA) /\
  mval (mem_of xbl16) xB (mof xbl16 xB) /\ mval (mem_of xbl16) xC (mof xbl16 xC) /\
  vval (mem_of xbl16) xv (vof xbl16 xv) /\ vval (mem_of xbl16) yv (vof xbl16 yv) /\
  disj (inm xA) (inm xC) /\ disj (inm xB) (inm xC) /\ disj (inm xA) (inv yv) /\ disj (inv xv) (inv yv) /\
  mcols xA <= vdim xv /\ mrows xA <= vdim yv /\ mcols xA = mrows xB /\ mrows xA <= mrows xC.
Proof. ex_tac. Qed.

(** ** C17: views *)
Section C17.
Context {K : fops}.
Implicit Types (m : mem K) (A src : mat) (x : vec).

(** [v] is a window of [dim] cells of [x] starting at [off]. *)
Definition window (v x : vec) (off dim : nat) : Prop :=
  vdim v = dim /\ (forall i, i < dim -> off + i < vdim x /\ va v i = va x (off + i)).
Definition mwindow (B A : mat) (roff rows coff cols : nat) : Prop :=
  mrows B = rows /\ mcols B = cols /\
  (forall i j, i < rows -> j < cols ->
     roff + i < mrows A /\ coff + j < mcols A /\ ma B i j = ma A (roff + i) (coff + j)).

Lemma u32_id a b c : (N.of_nat a + N.of_nat b < 2 ^ 32)%N ->
  ((N.of_nat a + N.of_nat b) mod 2 ^ 32 <=? N.of_nat c)%N = (a + b <=? c).
Proof.
  intros H. rewrite N.mod_small by exact H.
  destruct (Nat.leb_spec (a + b) c), (N.leb_spec (N.of_nat a + N.of_nat b) (N.of_nat c));
    try reflexivity; lia.
Qed.

(** As long as [off + dim] fits into 32 bits, the constructor either stops on its
    assertion (exactly when the window does not fit) or returns the window. *)
Theorem C17_init_sub_avector_partial : forall x dim off m,
  (N.of_nat off + N.of_nat dim < 2 ^ 32)%N ->
  (off + dim <= vdim x ->
     ends (init_sub_avector_u32 x dim off) m (fun v m' => window v x off dim /\ m' = m)) /\
  (vdim x < off + dim -> fails (init_sub_avector_u32 x dim off) m EAssert).
Proof.
  intros x dim off m H. unfold init_sub_avector_u32, ends, fails. rewrite u32_id by exact H. split; intros Hd.
  - rewrite (proj2 (Nat.leb_le _ _) Hd). cbn. eexists _, _. split; [reflexivity|].
    split; [|reflexivity]. split; [reflexivity|]. intros i Hi. split; [lia|].
    unfold va; cbn. f_equal. lia.
  - rewrite (proj2 (Nat.leb_gt _ _)) by lia. reflexivity.
Qed.

(** The versions used in the models of the other functions are these
    constructors, as long as nothing wraps around. *)
Theorem C17_init_sub_plain : forall (x : vec) (A : mat) dim off rows roff cols coff,
  (N.of_nat off + N.of_nat dim < 2 ^ 32)%N ->
  (N.of_nat roff + N.of_nat rows < 2 ^ 32)%N -> (N.of_nat coff + N.of_nat cols < 2 ^ 32)%N ->
  init_sub_avector (K:=K) x dim off = init_sub_avector_u32 x dim off /\
  init_sub_amatrix (K:=K) A rows roff cols coff = init_sub_amatrix_u32 A rows roff cols coff.
Proof.
  intros x A dim off rows roff cols coff H1 H2 H3. unfold init_sub_avector, init_sub_avector_u32,
    init_sub_amatrix, init_sub_amatrix_u32. rewrite !u32_id by assumption. split; reflexivity.
Qed.

(** Without that bound the assertion [off + dim <= src->dim] can be fooled. *)
Theorem C17_init_sub_avector_refuted : forall m, exists x dim off,
  (N.of_nat off < 2 ^ 32)%N /\ (N.of_nat dim < 2 ^ 32)%N /\ vdim x < off + dim /\
  ends (init_sub_avector_u32 x dim off) m (fun v _ => vdim v = dim).
Proof.
  intros m. exists (Vec 0 0 1 true), 2, (N.to_nat (2 ^ 32 - 1)).
  rewrite N2Nat.id. repeat split; try (cbn [vdim]; lia).
  unfold ends, init_sub_avector_u32. rewrite N2Nat.id. cbn [vdim].
  replace (((2 ^ 32 - 1 + N.of_nat 2) mod 2 ^ 32 <=? N.of_nat 1)%N) with true by (vm_compute; reflexivity).
  eexists _, _. split; reflexivity.
Qed.

Theorem C17_init_sub_amatrix_partial : forall A rows roff cols coff m,
  (N.of_nat roff + N.of_nat rows < 2 ^ 32)%N -> (N.of_nat coff + N.of_nat cols < 2 ^ 32)%N ->
  (roff + rows <= mrows A -> coff + cols <= mcols A ->
     ends (init_sub_amatrix_u32 A rows roff cols coff) m (fun B m' =>
       mwindow B A roff rows coff cols /\ mld B = mld A /\ m' = m)) /\
  (mrows A < roff + rows \/ mcols A < coff + cols ->
     fails (init_sub_amatrix_u32 A rows roff cols coff) m EAssert).
Proof.
  intros A rows roff cols coff m H1 H2. unfold init_sub_amatrix_u32, ends, fails.
  rewrite !u32_id by assumption. split.
  - intros Hr Hc. rewrite (proj2 (Nat.leb_le _ _) Hr), (proj2 (Nat.leb_le _ _) Hc). cbn.
    eexists _, _. split; [reflexivity|]. split; [|split; reflexivity].
    split; [reflexivity|]. split; [reflexivity|]. intros i j Hi Hj. split; [lia|]. split; [lia|].
    unfold ma; cbn. f_equal. lia.
  - intros Hx. destruct (Nat.leb_spec (roff + rows) (mrows A)); [|reflexivity].
    destruct (Nat.leb_spec (coff + cols) (mcols A)); [lia|reflexivity].
Qed.

Theorem C17_init_column_avector : forall A j m,
  (j < mcols A -> ends (init_column_avector A j) m (fun v m' =>
     vdim v = mrows A /\ (forall i, i < mrows A -> va v i = ma A i j) /\ m' = m)) /\
  (mcols A <= j -> fails (init_column_avector A j) m EAssert).
Proof.
  intros A j m. unfold init_column_avector, ends, fails. split; intros H.
  - rewrite (proj2 (Nat.ltb_lt _ _) H). cbn. eexists _, _. split; [reflexivity|].
    split; [reflexivity|]. split; [|reflexivity]. intros i Hi. unfold va, ma; cbn. f_equal. lia.
  - rewrite (proj2 (Nat.ltb_ge _ _) H). reflexivity.
Qed.

(** A matrix laid over a vector: column-major, inside the vector. *)
Theorem C17_init_vec_amatrix_partial : forall x rows cols m, 0 < cols ->
  (rows * cols <= vdim x ->
     ends (init_vec_amatrix x rows cols) m (fun B m' =>
       mrows B = rows /\ mcols B = cols /\
       (forall i j, i < rows -> j < cols -> i + j * rows < vdim x /\ ma B i j = va x (i + j * rows)) /\
       m' = m)) /\
  (vdim x < rows * cols -> fails (init_vec_amatrix x rows cols) m EAssert).
Proof.
  intros x rows cols m Hc. unfold init_vec_amatrix, ends, fails.
  destruct (Nat.eqb_spec cols 0); [lia|]. split; intros H.
  - assert (rows <= vdim x / cols) as Hle by (apply Nat.div_le_lower_bound; lia).
    rewrite (proj2 (Nat.leb_le _ _) Hle). cbn. eexists _, _. split; [reflexivity|].
    split; [reflexivity|]. split; [reflexivity|]. split; [|reflexivity].
    intros i j Hi Hj. split; [|reflexivity].
    assert (S j * rows <= cols * rows) by (apply Nat.mul_le_mono_r; lia). cbn in *. lia.
  - destruct (Nat.leb_spec rows (vdim x / cols)) as [Hle|]; [|reflexivity].
    pose proof (Nat.mul_div_le (vdim x) cols ltac:(lia)).
    assert (cols * rows <= cols * (vdim x / cols)) by (apply Nat.mul_le_mono_l; lia). lia.
Qed.

(** For zero columns the size check divides by zero. *)
Theorem C17_init_vec_amatrix_refuted : forall x rows m,
  fails (init_vec_amatrix x rows 0) m EDiv0.
Proof. reflexivity. Qed.

(** The matrix over a pointer has the requested shape only if it is square. *)
Theorem C17_init_pointer_amatrix_partial : forall p rows m,
  ends (init_pointer_amatrix p rows rows) m (fun B m' =>
    mrows B = rows /\ mcols B = rows /\
    (forall i j, ma B i j = (fst p, snd p + (i + j * rows))) /\ m' = m).
Proof. intros. eexists _, _. split; [reflexivity|]. cbn. repeat split. Qed.

Theorem C17_init_pointer_amatrix_refuted : forall p m, exists rows cols,
  ends (init_pointer_amatrix p rows cols) m (fun B _ => mrows B = rows /\ mcols B <> cols).
Proof. intros. exists 1, 2. eexists _, _. split; [reflexivity|]. cbn. split; [reflexivity|discriminate]. Qed.

(** Releasing a view never releases the storage of its source, releasing an owner
    releases exactly its block. *)
Theorem C17_uninit_avector : forall x m, (vown x = true -> vblk x < next m) ->
  ends (uninit_avector x) m (fun _ m' => forall a, get m' a =
    if vown x && (fst a =? vblk x) then Free else get m a).
Proof.
  intros x m H. unfold ends, uninit_avector. destruct (vown x).
  - cbn. rewrite (proj2 (Nat.ltb_lt _ _) (H eq_refl)). eexists _, _. split; [reflexivity|].
    intros a. rewrite get_dealloc. reflexivity.
  - cbn. eexists _, _. split; reflexivity.
Qed.

Theorem C17_uninit_amatrix : forall A m, (mown A = true -> mblk A < next m) ->
  ends (uninit_amatrix A) m (fun _ m' => forall a, get m' a =
    if mown A && (fst a =? mblk A) then Free else get m a).
Proof.
  intros x m H. unfold ends, uninit_amatrix. destruct (mown x).
  - cbn. rewrite (proj2 (Nat.ltb_lt _ _) (H eq_refl)). eexists _, _. split; [reflexivity|].
    intros a. rewrite get_dealloc. reflexivity.
  - cbn. eexists _, _. split; reflexivity.
Qed.
End C17.

Example C17_hyps : (N.of_nat 1 + N.of_nat 2 < 2 ^ 32)%N /\ 1 + 2 <= vdim xv /\ 1 + 2 <= mrows xA /\
  2 < mcols xA /\ 2 * 2 <= vdim yv /\ vblk yv < next xm.
Proof. repeat split; cbn; lia. Qed.

Print Assumptions C14_clear_avector.
Print Assumptions C14_fill_avector.
Print Assumptions C14_copy_avector.
Print Assumptions C14_copy_sub_avector.
Print Assumptions C14_scale_avector.
Print Assumptions C14_add_avector.
Print Assumptions C14_dotprod_avector.
Print Assumptions C14_norm2_avector.
Print Assumptions C14_init_zero_avector.
Print Assumptions C15_clear_amatrix.
Print Assumptions C15_identity_amatrix.
Print Assumptions C15_clear_lower_amatrix.
Print Assumptions C15_clear_upper_amatrix_partial.
Print Assumptions C15_clear_upper_amatrix_refuted.
Print Assumptions C15_copy_amatrix.
Print Assumptions C15_copy_sub_amatrix.
Print Assumptions C15_copy_colpiv_amatrix.
Print Assumptions C15_scale_amatrix.
Print Assumptions C15_conjugate_amatrix.
Print Assumptions C15_add_amatrix.
Print Assumptions C15_dotprod_amatrix.
Print Assumptions C15_normfrob_amatrix.
Print Assumptions C15_clone_amatrix.
Print Assumptions C15_resizecopy_amatrix.
Print Assumptions C15_init_identity_amatrix.
Print Assumptions C15_init_zero_amatrix.
Print Assumptions C15_bidiagmul_amatrix.
Print Assumptions C15_check_ortho_amatrix.
Print Assumptions C16_mvm_amatrix_avector.
Print Assumptions C16_addeval_amatrix_avector.
Print Assumptions C16_addevaltrans_amatrix_avector.
Print Assumptions C16_addmul_amatrix.
Print Assumptions C17_init_sub_avector_partial.
Print Assumptions C17_init_sub_avector_refuted.
Print Assumptions C17_init_sub_plain.
Print Assumptions C17_init_sub_amatrix_partial.
Print Assumptions C17_init_column_avector.
Print Assumptions C17_init_vec_amatrix_partial.
Print Assumptions C17_init_vec_amatrix_refuted.
Print Assumptions C17_init_pointer_amatrix_partial.
Print Assumptions C17_init_pointer_amatrix_refuted.
Print Assumptions C17_uninit_avector.
Print Assumptions C17_uninit_amatrix.
