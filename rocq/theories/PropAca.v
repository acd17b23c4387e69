(** * Property C25: adaptive cross approximation *)
From Coq Require Import Arith ZArith Lia List Bool.
From Verif Require Import Fld Inst Prog Arr View Spec Rkmatrix RkSpec RkP Qr Aca AcaSpec AcaP2 AcaP3 AcaP4 AcaP5 AcaP6 AcaP7 AcaInst.
Import ListNotations.
Open Scope nat_scope.

Section C25.
Context {K : fops} (L : field_laws K) (gt : K -> K -> bool) (GL : gt_laws gt).

(** Full pivoting: the low-rank matrix agrees with the given matrix in all pivot rows and columns,
    and everywhere up to the given accuracy relative to the largest entry. *)
Theorem C25_fullaca : forall a accur r (f : nat -> nat -> K) m,
  mwf a -> mval m a f -> rkown m r -> mblk a < next m -> mblk a <> mblk (rk_A r) -> mblk a <> mblk (rk_B r) ->
  fconj accur = accur ->
  ends (decomp_fullaca_rkmatrix gt a accur r) m (fun res m' =>
    let '(r', ridx, cidx) := res in
    exists X : nat -> nat -> K,
      rkown m' r' /\ mrows (rk_A r') = mrows a /\ mrows (rk_B r') = mcols a /\ rkrep m' r' X /\
      length ridx = rk_k r' /\ length cidx = rk_k r' /\ indices (mrows a) ridx /\ indices (mcols a) cidx /\
      (forall i j, i < mrows a -> j < mcols a -> In i ridx \/ In j cidx -> X i j = f i j) /\
      (exists mu, maxsq gt (mrows a) (mcols a) f mu /\
         forall i j, i < mrows a -> j < mcols a -> gt (abssqr (f i j - X i j)%F) (mu * accur * accur)%F = false) /\
      keeps (fun x => inm a x \/ rkblk r x \/ next m <= fst x) m m').
Proof.
  intros a accur r f m H1 H2 H3 H4 H5 H6 H7. apply wp_ends. eapply (wp_decomp_fullaca L gt GL); eauto.
  intros r' ridx cidx X F m'. intros. exists X. repeat (split; [assumption|]). assumption.
Qed.

(** Partial pivoting for the matrix [E(ridx i, cidx j)]: as long as the pivots are not zero, the
    low-rank matrix agrees with it in all pivot rows and columns.  A column pivot is a largest entry
    of its column of the second factor, the next row pivot a largest entry of a column of the first
    factor among the rows not used before. *)
Theorem C25_partialaca_partial : forall (sq : K -> K) (E : nat -> nat -> K) rows cols accur ridx cidx r (A0 B0 : nat -> nat -> K) m,
  length ridx = rows -> length cidx = cols -> rkown m r -> mld (rk_A r) = mrows (rk_A r) -> mld (rk_B r) = mrows (rk_B r) ->
  mval m (rk_A r) A0 -> mval m (rk_B r) B0 ->
  (rk_k r = 0 /\ mrows (rk_A r) = rows /\ mrows (rk_B r) = cols \/ 0 < rows /\ 0 < cols /\ gt f1 accur = true) ->
  ends (decomp_partialaca_rkmatrix gt sq E rows cols accur ridx cidx r) m (fun res m' =>
    let '(r', rpivot, cpivot) := res in
    exists (lr lc : list nat) (C D : nat -> nat -> K),
      rkown m' r' /\ mrows (rk_A r') = rows /\ mrows (rk_B r') = cols /\ rk_k r' <= Nat.min rows cols /\
      mval m' (rk_A r') C /\ mval m' (rk_B r') D /\
      rpivot = map (fun i => nth i ridx 0) lr /\ cpivot = map (fun j => nth j cidx 0) lc /\
      length lr = rk_k r' /\ length lc = rk_k r' /\ indices rows lr /\ indices cols lc /\
      (forall nu j, nu < rk_k r' -> j < cols -> gt (abssqr (D j nu)) (abssqr (D (nth nu lc 0) nu)) = false) /\
      (forall nu i, S nu < rk_k r' -> i < rows -> ~ In i (firstn (S nu) lr) ->
         gt (abssqr (C i nu)) (abssqr (C (nth (S nu) lr 0) nu)) = false) /\
      ((forall nu, nu < rk_k r' -> D (nth nu lc 0) nu <> f0) ->
         forall i j, i < rows -> j < cols -> In i lr \/ In j lc ->
           lowrank (rk_k r') C D i j = E (nth i ridx 0) (nth j cidx 0)) /\
      keeps (fun a => rkblk r a \/ next m <= fst a) m m').
Proof.
  intros sq E rows cols accur ridx cidx r A0 B0 m H1 H2 H3 H4 H5 H6 H7 H8. apply wp_ends.
  eapply (wp_decomp_partialaca L gt GL sq); eauto.
  intros r' lr lc C D m'. intros. exists lr, lc, C, D. repeat (split; [first [assumption|reflexivity]|]). assumption.
Qed.

(** All rows or all columns are pivots if the rank is maximal, so that agreement in the pivot rows
    and columns is agreement everywhere. *)
Theorem C25_maximal_rank : forall rows cols k lr lc,
  k = Nat.min rows cols -> length lr = k -> length lc = k -> indices rows lr -> indices cols lc ->
  forall i j, i < rows -> j < cols -> In i lr \/ In j lc.
Proof.
  assert (H : forall n l, length l = n -> indices n l -> forall i, i < n -> In i l).
  { intros n l Hl [Hn Hb] i Hi. assert (Hin : incl (seq 0 n) l); [|apply Hin, in_seq; lia].
    apply NoDup_length_incl; [exact Hn|rewrite seq_length; lia|]. intros x Hx. apply in_seq. split; [lia|]. apply Hb, Hx. }
  intros rows cols k lr lc -> H1 H2 H3 H4 i j Hi Hj.
  destruct (Nat.le_ge_cases rows cols) as [Hle|Hle].
  - left. apply (H rows); auto. lia.
  - right. apply (H cols); auto. lia.
Qed.

(** If the accuracy is not below one, the loop is not entered: the rank is set to zero, but the
    factors keep the number of columns they had before. *)
Theorem C25_large_accuracy_refuted : forall (sq : K -> K) (E : nat -> nat -> K) rows cols accur ridx cidx r (B0 : nat -> nat -> K) m,
  gt f1 accur = false -> mwf (rk_B r) -> mval m (rk_B r) B0 ->
  ends (decomp_partialaca_rkmatrix gt sq E rows cols accur ridx cidx r) m (fun res _ =>
    let '(r', _, _) := res in rk_k r' = 0 /\ mcols (rk_A r') = mcols (rk_A r) /\ mcols (rk_B r') = mcols (rk_B r)).
Proof.
  intros sq E rows cols accur ridx cidx r B0 m Hg HW HB. apply wp_ends. unfold decomp_partialaca_rkmatrix. cbv zeta.
  assert (El : partialaca_loop gt sq E rows cols accur (Nat.min rows cols) 0 (rk_A r) (rk_B r)
                 (Apiv (anew rows) (anew cols) (aof ridx) (aof cidx)) f1 f1
               = Ret (rk_A r, rk_B r, 0, Apiv (anew rows) (anew cols) (aof ridx) (aof cidx))).
  { destruct (Nat.min rows cols); cbn [partialaca_loop]; [reflexivity|]. rewrite Hg. reflexivity. }
  rewrite El. cbn [bind]. unfold aca_unpivot. cbn [fordown bind].
  apply wp_bind. eapply AmatrixP.wp_conjugate_amatrix; [exact HW|exact HB|intros x _; exact I|].
  intros m' _ _. cbn. auto.
Qed.

Theorem C25_copy_lower : forall (un : bool) A (xi : arr nat) nx x B (f g : nat -> nat -> K) m,
  mwf B -> mval m A f -> mval m B g -> disj (inm A) (inm B) -> mrows B <= mrows A -> mcols B = mcols A -> mcols A <= mrows B ->
  aval xi nx x -> mrows B <= nx -> (forall i, i < mrows B -> x i < mrows A) ->
  ends (copy_lower_aca_amatrix un A xi B) m (fun _ m' => exists h : nat -> nat -> K, mval m' B h /\
    (forall i j, i < mrows B -> j < mcols B -> j < i -> h i j = f (x i) j) /\
    (forall j, j < mcols B -> h j j = if un then f1 else f (x j) j) /\
    (forall i j, i < mrows B -> j < mcols B -> i < j -> h i j = g i j) /\ keeps (inm B) m m').
Proof.
  intros un A xi nx x B f g m H1 H2 H3 H4 H5 H6 H7 H8 H9 H10. apply wp_ends.
  eapply wp_copy_lower_aca; eauto; try (intros ? _; first [exact I|left; exact I]).
  intros m' HB Hk. eexists. split; [exact HB|]. cbv beta. split; [|split; [|split; [|exact Hk]]].
  - intros i j _ _ H. destruct (Nat.ltb_spec j i); [reflexivity|lia].
  - intros j _. rewrite Nat.ltb_irrefl, Nat.eqb_refl. reflexivity.
  - intros i j _ _ H. destruct (Nat.ltb_spec j i); [lia|]. destruct (Nat.eqb_spec i j); [lia|reflexivity].
Qed.

(** The documentation promises entry [(i, j)] of the upper part to be entry [(xi(i), j)] of the
    source; the code stores the adjoint of the pivoted lower part (without conjugation). *)
Theorem C25_copy_upper : forall (un : bool) A (xi : arr nat) nx x B (f g : nat -> nat -> K) m,
  mwf B -> mval m A f -> mval m B g -> disj (inm A) (inm B) -> mrows B <= mrows A -> mrows B = mcols A -> mrows B <= mcols B ->
  aval xi nx x -> mrows B <= nx -> (forall i, i < mrows B -> x i < mrows A) ->
  ends (copy_upper_aca_amatrix un A xi B) m (fun _ m' => exists h : nat -> nat -> K, mval m' B h /\
    (forall i j, i < j -> j < mrows B -> h i j = f (x j) i) /\
    (forall j, j < mrows B -> h j j = if un then f1 else f (x j) j) /\
    (forall i j, i < mrows B -> j < mcols B -> j < i \/ mrows B <= j -> h i j = g i j) /\ keeps (inm B) m m').
Proof.
  intros un A xi nx x B f g m H1 H2 H3 H4 H5 H6 H7 H8 H9 H10. apply wp_ends.
  eapply wp_copy_upper_aca; eauto; try (intros ? _; first [exact I|left; exact I]).
  intros m' HB Hk. eexists. split; [exact HB|]. cbv beta. split; [|split; [|split; [|exact Hk]]].
  - intros i j H H'. destruct (Nat.ltb_spec i j); [|lia]. destruct (Nat.ltb_spec j (mrows B)); [reflexivity|lia].
  - intros j _. rewrite Nat.ltb_irrefl, Nat.eqb_refl. reflexivity.
  - intros i j Hi Hj H. destruct (Nat.ltb_spec i j), (Nat.ltb_spec j (mrows B)); cbn [andb]; try lia;
      destruct (Nat.eqb_spec i j); try lia; reflexivity.
Qed.
End C25.

(** A 2x3 complex matrix in block 0, an empty low-rank matrix in blocks 1 and 2. *)
Definition xam : list (list GQf) := [[gq 1 1; gq 3 0; gq 2 0; gq 0 1; gq 0 0; gq 1 0]; []; []].
Definition xaA : mat := Mat 0 0 2 2 3 true.
Definition xar : rkm := Rk (Mat 1 0 2 2 0 true) (Mat 2 0 3 3 0 true) 0.

Example C25_hyps :
  mwf xaA /\ mval (mem_of xam) xaA (mof xam xaA) /\ rkown (mem_of xam) xar /\ rk_k xar = 0 /\
  match run (decomp_fullaca_rkmatrix Ggt xaA (gq 0 0) xar) (mem_of xam) with
  | Ok (r, ri, ci, m) => rk_k r = 2 /\ ri = [1; 0] /\ ci = [0; 1]
  | _ => False
  end /\
  match run (decomp_fullaca_rkmatrix Ggt xaA (gq 1 0) xar) (mem_of xam) with
  | Ok (r, ri, ci, m) => rk_k r = 0 /\ ri = [] /\ ci = []
  | _ => False
  end /\
  match run (decomp_partialaca_rkmatrix Ggt (fun x => x) (mof xam xaA) 2 3 (gq 0 0) [1; 0] [2; 1; 0] xar) (mem_of xam) with
  | Ok (r, ri, ci, m) => rk_k r = 2 /\ ri = [0; 1] /\ ci = [1; 0]
  | _ => False
  end.
Proof.
  split. { unfold mwf; cbn; lia. }
  split; [apply mval_of; reflexivity|].
  split. { unfold rkown, mwf, malloc; cbn. repeat split; auto; try lia; intros; lia. }
  split; [reflexivity|]. split; [vm_compute; auto|]. split; vm_compute; auto.
Qed.

(** For the zero matrix the partially pivoted version does not stop: it divides by the pivot zero. *)
Theorem C25_zero_pivot_refuted : exists m r accur,
  rkown m r /\ rk_k r = 0 /\ Ggt f1 accur = true /\
  match run (decomp_partialaca_rkmatrix Ggt (fun x => x) (fun _ _ => f0 : GQf) 2 2 accur [0; 1] [0; 1] r) m with
  | Ok (r', ri, ci, m') => rk_k r' = 1 /\ ci = [0] /\ get m' (ma (rk_B r') 0 0) = Val f0
  | _ => False
  end.
Proof.
  exists (mem_of ([[]; []] : list (list GQf))), (Rk (Mat 0 0 2 2 0 true) (Mat 1 0 2 2 0 true) 0), (gq 0 0).
  split. { unfold rkown, mwf, malloc; cbn. repeat split; auto; try lia; intros; lia. }
  split; [reflexivity|]. split; [reflexivity|]. split; [vm_compute; reflexivity|]. split; [vm_compute; reflexivity|].
  vm_compute. reflexivity.
Qed.

(** The documented entry differs from the stored one. *)
Theorem C25_copy_upper_refuted :
  let l := [[qz 1; qz 2; qz 3; qz 4]; [qz 0; qz 0; qz 0; qz 0]] in
  let A := Mat 0 0 2 2 2 true in let B := Mat 1 0 2 2 2 true in
  mval (mem_of l) A (@mof Qcf l A) /\ mval (mem_of l) B (@mof Qcf l B) /\
  match run (@copy_upper_aca_amatrix Qcf false A (aof [0; 1]) B) (mem_of l) with
  | Ok (_, m') => get m' (ma B 0 1) = Val (qz 2) /\ qz 2 <> @mof Qcf l A 0 1
  | _ => False
  end.
Proof.
  cbv zeta. split; [apply (@mval_of Qcf); reflexivity|]. split; [apply (@mval_of Qcf); reflexivity|].
  vm_compute. split; [reflexivity|]. intros H. discriminate H.
Qed.

Print Assumptions C25_fullaca.
Print Assumptions C25_partialaca_partial.
Print Assumptions C25_maximal_rank.
Print Assumptions C25_large_accuracy_refuted.
Print Assumptions C25_copy_lower.
Print Assumptions C25_copy_upper.
