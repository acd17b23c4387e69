(** * Property C26: products of H-matrices and vectors *)
From Coq Require Import Arith Lia List Bool ZArith.
From Verif Require Import Fld Inst Ord OrdInst Prog Arr View Spec Loop Cluster Block Avector Amatrix AmatrixP2 Norm NormP
  Rkmatrix RkSpec RkP Hmatrix HmSpec HmP HmP2 HmP3.
Import ListNotations.

Section C26.
Context {K : fops} {G : ofops} (L : ring_laws K).
Implicit Types (m : mem K) (h : hmatrix G) (x y : vec) (D A : nat -> nat -> K) (f g : nat -> K).

Let allr : forall P, rdok (fun _ => True) (fun _ => True) P := fun P a _ => or_introl I.
Let allw : forall P, wrok (fun _ => True) P := fun P a _ => I.

(** y <- y + alpha D x, where [D] is the matrix represented by the H-matrix (numbered as in the
    clusters). *)
Theorem C26_fastaddeval_hmatrix : forall h alpha x y D f g m,
  hrep m h D -> vval m x f -> vval m y g -> vdim x = hcols h -> vdim y = hrows h ->
  disj (inv x) (inv y) -> disj (inh h) (inv y) ->
  ends (fastaddeval_hmatrix_avector alpha h x y) m (fun _ m' =>
    vval m' y (fun i => g i + alpha * sum (hcols h) (fun j => D i j * f j))%F /\ keeps (inv y) m m').
Proof. intros h alpha x y D f g m H1 H2 H3 H4 H5 H6 H7. apply wp_ends. eapply (wp_fastaddeval L); eauto. Qed.

Theorem C26_fastaddevaltrans_hmatrix : forall h alpha x y D f g m,
  hrep m h D -> vval m x f -> vval m y g -> vdim x = hrows h -> vdim y = hcols h ->
  disj (inv x) (inv y) -> disj (inh h) (inv y) ->
  ends (fastaddevaltrans_hmatrix_avector alpha h x y) m (fun _ m' =>
    vval m' y (fun j => g j + alpha * sum (hrows h) (fun i => fconj (D i j) * f i))%F /\ keeps (inv y) m m').
Proof. intros h alpha x y D f g m H1 H2 H3 H4 H5 H6 H7. apply wp_ends. eapply (wp_fastaddevaltrans L); eauto. Qed.

(** The same for the matrix [A] and vectors numbered in the original order of the unknowns. *)
Theorem C26_addeval_hmatrix : forall ridx cidx h alpha x y A f g m,
  hrepi m ridx cidx h A -> vval m x f -> vval m y g -> vdim x = hcols h -> vdim y = hrows h ->
  vblk x < next m -> vblk y < next m -> (forall a, inh h a -> fst a < next m) -> disj (inv x) (inv y) ->
  ends (addeval_hmatrix_avector ridx cidx alpha h x y) m (fun _ m' =>
    vval m' y (fun i => g i + alpha * sum (hcols h) (fun j => A i j * f j))%F /\ keeps (inv y) m m').
Proof. intros ridx cidx h alpha x y A f g m H1 H2 H3 H4 H5 H6 H7 H8 H9. apply wp_ends. eapply (wp_addeval_h L); eauto. Qed.

Theorem C26_addevaltrans_hmatrix : forall ridx cidx h alpha x y A f g m,
  hrepi m ridx cidx h A -> vval m x f -> vval m y g -> vdim x = hrows h -> vdim y = hcols h ->
  vblk x < next m -> vblk y < next m -> (forall a, inh h a -> fst a < next m) -> disj (inv x) (inv y) ->
  ends (addevaltrans_hmatrix_avector ridx cidx alpha h x y) m (fun _ m' =>
    vval m' y (fun j => g j + alpha * sum (hrows h) (fun i => fconj (A i j) * f i))%F /\ keeps (inv y) m m').
Proof. intros ridx cidx h alpha x y A f g m H1 H2 H3 H4 H5 H6 H7 H8 H9. apply wp_ends. eapply (wp_addevaltrans_h L); eauto. Qed.

Theorem C26_mvm_hmatrix : forall ridx cidx h alpha (t : bool) x y A f g m,
  hrepi m ridx cidx h A -> vval m x f -> vval m y g ->
  vdim x = (if t then hrows h else hcols h) -> vdim y = (if t then hcols h else hrows h) ->
  vblk x < next m -> vblk y < next m -> (forall a, inh h a -> fst a < next m) -> disj (inv x) (inv y) ->
  ends (mvm_hmatrix_avector ridx cidx alpha t h x y) m (fun _ m' =>
    vval m' y (fun i => g i + alpha * mvec (vdim x) (tr t A) f i)%F /\ keeps (inv y) m m').
Proof.
  intros ridx cidx h alpha t x y A f g m H1 H2 H3 H4 H5 H6 H7 H8 H9. unfold mvm_hmatrix_avector. destruct t; rewrite H4.
  - apply C26_addevaltrans_hmatrix; assumption.
  - apply C26_addeval_hmatrix; assumption.
Qed.

(** The symmetric variants only use the lower half of the H-matrix; the product is the one with the
    hermitian matrix that has this lower half. *)
Theorem C26_fastaddevalsymm_hmatrix : forall h alpha x y D f g m,
  hlow m h D -> vval m x f -> vval m y g -> vdim x = hrows h -> vdim y = hrows h ->
  disj (inv x) (inv y) -> disj (inh h) (inv y) ->
  ends (fastaddevalsymm_hmatrix_avector alpha h x y) m (fun _ m' =>
    vval m' y (fun i => g i + alpha * sum (hrows h) (fun j => (if j <=? i then D i j else fconj (D j i)) * f j))%F /\ keeps (inv y) m m').
Proof. intros h alpha x y D f g m H1 H2 H3 H4 H5 H6 H7. apply wp_ends. eapply (wp_fastaddevalsymm L); eauto. Qed.

Theorem C26_addevalsymm_hmatrix : forall idx h alpha x y A f g m,
  hlowi m idx h A -> vval m x f -> vval m y g -> vdim x = hrows h -> vdim y = hrows h ->
  vblk x < next m -> vblk y < next m -> (forall a, inh h a -> fst a < next m) -> disj (inv x) (inv y) ->
  ends (addevalsymm_hmatrix_avector idx alpha h x y) m (fun _ m' =>
    vval m' y (fun i => g i + alpha * sum (hrows h) (fun j => A i j * f j))%F /\ keeps (inv y) m m').
Proof. intros idx h alpha x y A f g m H1 H2 H3 H4 H5 H6 H7 H8 H9. apply wp_ends. eapply (wp_addevalsymm_h L); eauto. Qed.

(** The norm estimators run the power iteration of the represented matrix and leave the memory as it was. *)
Theorem C26_norm2_hmatrix : forall sq pos rnd ridx cidx h A m,
  hrepi m ridx cidx h A -> (forall a, inh h a -> fst a < next m) ->
  ends (norm2_hmatrix sq pos rnd ridx cidx h) m (fun n m' =>
    n = sq (power_it sq pos (hrows h) (hcols h) A (fun i j => fconj (A j i)) NORM_STEPS (sq (dot (hcols h) rnd rnd)) rnd) /\
    keeps (fun _ => False) m m').
Proof.
  intros sq pos rnd ridx cidx h A m Hr Hb. apply wp_ends. unfold norm2_hmatrix.
  eapply (wp_norm2_matrix L) with (F := inh h); [exact (h_mvm_ok L ridx cidx h A)|split; assumption|exact Hb|apply allr|].
  intros m' Hk. split; [reflexivity|exact Hk].
Qed.

Theorem C26_norm2diff_hmatrix : forall sq pos rnd ridx cidx (a b : hmatrix G) A B m,
  hrepi m ridx cidx a A -> hrepi m ridx cidx b B -> hrows b = hrows a -> hcols b = hcols a ->
  (forall p, inh a p \/ inh b p -> fst p < next m) ->
  ends (norm2diff_hmatrix sq pos rnd ridx cidx a b) m (fun n m' =>
    n = sq (power_it sq pos (hrows a) (hcols a) (fun i j => A i j - B i j)%F (fun i j => fconj (A j i) - fconj (B j i))%F
              NORM_STEPS (sq (dot (hcols a) rnd rnd)) rnd) /\
    keeps (fun _ => False) m m').
Proof.
  intros sq pos rnd ridx cidx a b A B m Ha Hb E1 E2 Hf. apply wp_ends. unfold norm2diff_hmatrix, norm2diff_matrix.
  pose proof (h_mvm_ok L ridx cidx a A) as M1. pose proof (h_mvm_ok L ridx cidx b B) as M2. rewrite E1, E2 in M2.
  eapply (wp_norm2_matrix L) with (F := fun p => inh a p \/ inh b p); [exact (mvm_ok_diff L _ _ _ _ _ _ _ _ _ _ _ _ M1 M2)| |exact Hf|apply allr|].
  - repeat split; try assumption; intros p Hp; apply Hf; auto.
  - intros m' Hk. split; [reflexivity|exact Hk].
Qed.

(** Zero blocks (leaves without a matrix, which [new_hmatrix] creates) are not supported: the
    assertions at the end of the traversal fail. *)
Theorem C26_zero_leaf_refuted : forall (rc cc : cptr G) alpha x y m,
  0 < csz cc -> vdim x = csz cc -> vdim y = csz rc ->
  fails (fastaddeval_hmatrix_avector alpha (new_hmatrix rc cc) x y) m EAssert.
Proof.
  intros rc cc alpha x y m H0 Hx Hy. unfold fails, new_hmatrix. cbn [fastaddeval_hmatrix_avector].
  rewrite Hx, Hy, !Nat.eqb_refl. cbn [passert bind forS]. destruct (Nat.eqb_spec 0 (csz cc)); [lia|]. reflexivity.
Qed.
End C26.

(** A 3 x 3 matrix with complex entries, split into a 1 x 1, a 2 x 1 low-rank, a 1 x 2 and a 2 x 2
    block, with a permutation of the unknowns. *)
Definition xhl (k o : nat) : cluster QcO := Cl k o [] 0 (anew 0) (anew 0) (Some 1) 0.
Definition xht : cluster QcO := Cl 3 0 [xhl 1 0; xhl 2 1] 0 (anew 0) (anew 0) (Some 3) 0.
Definition xh0 : cptr QcO := CP [0] (xhl 1 0).
Definition xh1 : cptr QcO := CP [1] (xhl 2 1).
Definition xhf00 : mat := Mat 0 0 1 1 1 true.
Definition xhA : mat := Mat 1 0 2 2 1 true.
Definition xhB : mat := Mat 2 0 1 1 1 true.
Definition xhf01 : mat := Mat 3 0 1 1 2 true.
Definition xhf11 : mat := Mat 4 0 2 2 2 true.
Definition xh : hmatrix QcO :=
  HM (CP [] xht) (CP [] xht) None None (Some [HM xh0 xh0 None (Some xhf00) None 0 0 1; HM xh1 xh0 (Some (Rk xhA xhB 1)) None None 0 0 1;
    HM xh0 xh1 None (Some xhf01) None 0 0 1; HM xh1 xh1 None (Some xhf11) None 0 0 1]) 2 2 5.
Definition xhm : list (list GQf) :=
  [ [gq 1 0]; [gq 2 1; gq 0 1]; [gq 1 3]; [gq 5 0; gq 7 1]; [gq 1 0; gq 2 5; gq 3 0; gq 4 0]; [gq 1 0; gq 2 0; gq 0 1]; [gq 5 0; gq 6 0; gq 0 0] ].
Definition xhD (p q : nat) : GQf :=
  if p <? 1 then (if q <? 1 then mof xhm xhf00 p q else mof xhm xhf01 p (q - 1))
  else (if q <? 1 then lowrank 1 (mof xhm xhA) (mof xhm xhB) (p - 1) q else mof xhm xhf11 (p - 1) (q - 1)).
Definition xhidx : arr nat := aof [2; 0; 1].
Definition xhg (i : nat) : nat := nth i [2; 0; 1] 0.
Definition xhgi (i : nat) : nat := nth i [1; 2; 0] 0.

Lemma xh_perm : perm_at xhidx 0 3 xhg.
Proof.
  split; [|split].
  - intros [|[|[|i]]] Hi; try reflexivity; lia.
  - intros [|[|[|i]]] Hi; cbn; lia.
  - intros [|[|[|i]]] [|[|[|j]]] Hi Hj; cbn; intros; try reflexivity; try discriminate; lia.
Qed.

Lemma xh_rep : hrep (mem_of xhm) xh xhD.
Proof.
  eapply (hrep_super _ _ _ _ 2 2 _ (fun i => nth i [1; 2] 0) (fun i => nth i [1; 2] 0)); try reflexivity; try lia.
  - intros [|[|i]] [|[|j]] s Hi Hj Hs; try lia; cbn in Hs; injection Hs as <-; split; reflexivity.
  - intros [|[|i]] [|[|j]] s Hi Hj Hs; try lia; cbn in Hs; injection Hs as <-; constructor; try reflexivity.
    + eapply mval_ext; [apply mval_of; reflexivity|]. intros p q Hp Hq. cbn in Hp, Hq. destruct p, q; [reflexivity|lia..].
    + eapply mval_ext; [apply mval_of; reflexivity|]. intros p q Hp Hq. cbn in Hp, Hq. destruct p; [|lia]. cbn [nsum nth Nat.add]. unfold xhD.
      cbn [Nat.ltb Nat.leb Nat.sub]. rewrite Nat.sub_0_r. reflexivity.
    + exists (mof xhm xhA), (mof xhm xhB). split; [apply mval_of; reflexivity|]. split; [apply mval_of; reflexivity|]. split; [reflexivity|]. split; [reflexivity|].
      intros p q Hp Hq. cbn in Hp, Hq. destruct q; [|lia]. cbn [nsum nth Nat.add]. unfold xhD. cbn [Nat.ltb Nat.leb Nat.sub]. rewrite Nat.sub_0_r. reflexivity.
    + eapply mval_ext; [apply mval_of; reflexivity|]. intros p q Hp Hq. cbn [nsum nth Nat.add]. unfold xhD. cbn [Nat.ltb Nat.leb Nat.sub]. rewrite !Nat.sub_0_r. reflexivity.
Qed.

Lemma xh_low : hlow (mem_of xhm) xh xhD.
Proof.
  pose proof xh_rep as H. inversion H as [| |rc cc l rs cs ds hs ws D P1 P2 P3 P4 P5 P6 P7]. clear H; subst.
  eapply (hlow_super _ _ _ 2 _ (fun i => nth i [1; 2] 0)); try reflexivity; try lia.
  - intros [|[|j]] t Ht; cbn in Ht; try (injection Ht as <-; reflexivity). destruct j; discriminate.
  - intros [|[|i]] [|[|j]] s Hi Hj Hs; try lia; cbn in Hs; injection Hs as <-; split; reflexivity.
  - intros [|[|j]] s Hj Hs; try lia; cbn in Hs; injection Hs as <-; constructor; try reflexivity.
    + intros p q Hpq. cbn in Hpq. assert (p = 0) by lia. assert (q = 0) by lia. subst. reflexivity.
    + intros p q Hpq. cbn in Hpq. destruct p as [|[|p]], q as [|[|q]]; try lia; reflexivity.
  - intros [|[|i]] [|[|j]] s Hij Hs; try lia. cbn in Hs. injection Hs as <-. constructor; try reflexivity.
    exists (mof xhm xhA), (mof xhm xhB). split; [apply mval_of; reflexivity|]. split; [apply mval_of; reflexivity|]. split; [reflexivity|]. split; [reflexivity|].
    intros p q Hp Hq. cbn in Hp, Hq. destruct q; [|lia]. cbn [nsum nth Nat.add]. unfold xhD. cbn [Nat.ltb Nat.leb Nat.sub]. rewrite Nat.sub_0_r. reflexivity.
Qed.

Lemma xh_in : forall a, inh xh a -> fst a < 5.
Proof.
  intros a H. inversion H as [? r ? E|? f ? E|? l s ? E Hs Ha]; subst; try discriminate. injection E as <-. cbn in Hs.
  assert (leaf : forall (rc cc : cptr QcO) r f, inh (HM rc cc r f None 0 0 1) a ->
            (exists r', r = Some r' /\ inrk r' a) \/ (exists f', f = Some f' /\ inm f' a)).
  { intros rc cc r f Hx. inversion Hx; subst; cbn in *; [left; eauto|right; eauto|discriminate]. }
  decompose [or] Hs; try contradiction; subst s; apply leaf in Ha; destruct Ha as [(r & E & Hr)|(f & E & Hf)]; try discriminate;
    injection E as <-; [apply inm_blk in Hf; rewrite Hf; cbn; lia| |apply inm_blk in Hf; rewrite Hf; cbn; lia..].
  destruct Hr as [Hr|Hr]; apply inm_blk in Hr; rewrite Hr; cbn; lia.
Qed.

Example C26_hyps : let m := mem_of xhm in let x := Vec 5 0 3 true in let y := Vec 6 0 3 true in
  hrep m xh xhD /\ hlow m xh xhD /\ hrepi m xhidx xhidx xh (fun i j => xhD (xhgi i) (xhgi j)) /\
  hlowi m xhidx xh (fun i j => herm_of xhD (xhgi i) (xhgi j)) /\
  vval m x (vof xhm x) /\ vval m y (vof xhm y) /\ disj (inv x) (inv y) /\ disj (inh xh) (inv y) /\
  vblk x < next m /\ vblk y < next m /\ (forall a, inh xh a -> fst a < next m) /\ hrows xh = 3 /\ hcols xh = 3.
Proof.
  cbv zeta. split; [exact xh_rep|]. split; [exact xh_low|].
  split. { exists xhg, xhg. split; [exact xh_perm|]. split; [exact xh_perm|]. eapply hrep_ext; [exact xh_rep|].
    intros [|[|[|i]]] [|[|[|j]]] Hi Hj; try reflexivity; cbn in Hi, Hj; lia. }
  split. { exists xhg, xhD. split; [exact xh_perm|]. split; [exact xh_low|].
    intros [|[|[|i]]] [|[|[|j]]] Hi Hj; try reflexivity; cbn in Hi, Hj; lia. }
  split; [apply vval_of; reflexivity|]. split; [apply vval_of; reflexivity|].
  split. { intros a Ha Hb. apply inv_blk in Ha, Hb. cbn in *. congruence. }
  split. { intros a Ha Hb. apply xh_in in Ha. apply inv_blk in Hb. cbn in *. lia. }
  split; [cbn; lia|]. split; [cbn; lia|]. split; [intros a Ha; apply xh_in in Ha; cbn; lia|]. split; reflexivity.
Qed.

Print Assumptions C26_addeval_hmatrix.
Print Assumptions C26_addevaltrans_hmatrix.
Print Assumptions C26_addevalsymm_hmatrix.
Print Assumptions C26_norm2diff_hmatrix.
Print Assumptions C26_zero_leaf_refuted.
