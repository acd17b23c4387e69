(** * Property C33: products of H2-matrices *)
From Coq Require Import Arith Lia List Bool ZArith.
From Verif Require Import Fld Inst Ord OrdInst Prog Arr View Spec Loop Cluster Block Avector Amatrix AmatrixP2 Norm NormP
  Hmatrix HmSpec HmP HmP2 Clusterbasis CbSpec CbP CbP2 CbP3 CbP4 PropCb H2matrix H2Spec H2P H2P2 H2P3.
Import ListNotations.

Section C33.
Context {K : fops} {G : ofops} (L : ring_laws K).
Implicit Types (m : mem K) (h : h2matrix G) (x y : vec) (A D : nat -> nat -> K) (f g : nat -> K).

Let allr : forall P, rdok (fun _ => True) (fun _ => True) P := fun P a _ => or_introl I.
Let allw : forall P, wrok (fun _ => True) P := fun P a _ => I.

(** y <- y + alpha A x and y <- y + alpha A^* x for the matrix [A] represented by the H2-matrix; [x] and
    [y] may even share cells. *)
Theorem C33_addeval : forall ridx cidx h alpha x y A f g m,
  h2ready m ridx cidx h A -> vval m x f -> vval m y g -> vdim x = h2cols h -> vdim y = h2rows h ->
  vblk x < next m -> vblk y < next m -> (forall a, inh2b h a -> fst a < next m) -> disj (inh2b h) (inv y) ->
  ends (addeval_h2matrix_avector ridx cidx alpha h x y) m (fun _ m' =>
    vval m' y (fun i => g i + alpha * sum (h2cols h) (fun j => A i j * f j))%F /\ keeps (inv y) m m').
Proof.
  intros ridx cidx h alpha x y A f g m P1 P2 P3 P4 P5 P6 P7 P8 P9. apply wp_ends.
  change (addeval_h2matrix_avector ridx cidx alpha h x y) with (mvm_h2matrix_avector ridx cidx alpha false h x y).
  eapply (wp_h2_mvm_h2 L ridx cidx h _ _ alpha false x y A f g m); eauto. intros m' Hy Hk. rewrite P4 in Hy. split; [exact Hy|exact Hk].
Qed.
Theorem C33_addevaltrans : forall ridx cidx h alpha x y A f g m,
  h2ready m ridx cidx h A -> vval m x f -> vval m y g -> vdim x = h2rows h -> vdim y = h2cols h ->
  vblk x < next m -> vblk y < next m -> (forall a, inh2b h a -> fst a < next m) -> disj (inh2b h) (inv y) ->
  ends (addevaltrans_h2matrix_avector ridx cidx alpha h x y) m (fun _ m' =>
    vval m' y (fun j => g j + alpha * sum (h2rows h) (fun i => fconj (A i j) * f i))%F /\ keeps (inv y) m m').
Proof.
  intros ridx cidx h alpha x y A f g m P1 P2 P3 P4 P5 P6 P7 P8 P9. apply wp_ends.
  change (addevaltrans_h2matrix_avector ridx cidx alpha h x y) with (mvm_h2matrix_avector ridx cidx alpha true h x y).
  eapply (wp_h2_mvm_h2 L ridx cidx h _ _ alpha true x y A f g m); eauto. intros m' Hy Hk. rewrite P4 in Hy. split; [exact Hy|exact Hk].
Qed.
Theorem C33_mvm : forall ridx cidx h alpha (t : bool) x y A f g m,
  h2ready m ridx cidx h A -> vval m x f -> vval m y g ->
  vdim x = (if t then h2rows h else h2cols h) -> vdim y = (if t then h2cols h else h2rows h) ->
  vblk x < next m -> vblk y < next m -> (forall a, inh2b h a -> fst a < next m) -> disj (inh2b h) (inv y) ->
  ends (mvm_h2matrix_avector ridx cidx alpha t h x y) m (fun _ m' =>
    vval m' y (fun i => g i + alpha * mvec (vdim x) (tr t A) f i)%F /\ keeps (inv y) m m').
Proof.
  intros ridx cidx h alpha t x y A f g m P1 P2 P3 P4 P5 P6 P7 P8 P9. apply wp_ends.
  eapply (wp_h2_mvm_h2 L ridx cidx h _ _ alpha t x y A f g m); eauto.
Qed.

(** The multiplication step on its own: for the transformed coefficients [xt] of [x] it adds
    coefficients to [yt] whose backward transform is alpha D x, where [D] is the represented matrix
    numbered as in the clusters. *)
Theorem C33_fastaddeval : forall h alpha xt yt D X Xt Y m,
  h2rep (cbmat m) m h D -> h2strict h -> cbok (h2_rb h) -> cbok (h2_cb h) ->
  vval m xt Xt -> vval m yt Y -> vdim xt = cb_ktree (h2_cb h) -> vdim yt = cb_ktree (h2_rb h) ->
  fwd_of (cbmat m) (h2_cb h) X Xt -> disj (inv xt) (inv yt) -> disj (inh2 h) (inv yt) ->
  ends (fastaddeval_h2matrix_avector alpha h xt yt) m (fun _ m' => exists Y', vval m' yt Y' /\
    (forall p, p < h2rows h -> bwd_of (cbmat m) (h2_rb h) Y' p = bwd_of (cbmat m) (h2_rb h) Y p + alpha * sum (h2cols h) (fun q => D p q * X q))%F /\
    keeps (inv yt) m m').
Proof.
  intros h alpha xt yt D X Xt Y m P1 P2 P3 P4 P5 P6 P7 P8 P9 P10 P11. apply wp_ends.
  eapply (wp_fast2 L (cbmat m) h _ _ alpha xt yt D X Xt Y m); eauto.
Qed.
Theorem C33_fastaddevaltrans : forall h alpha xt yt D X Xt Y m,
  h2rep (cbmat m) m h D -> h2strict h -> cbok (h2_rb h) -> cbok (h2_cb h) ->
  vval m xt Xt -> vval m yt Y -> vdim xt = cb_ktree (h2_rb h) -> vdim yt = cb_ktree (h2_cb h) ->
  fwd_of (cbmat m) (h2_rb h) X Xt -> disj (inv xt) (inv yt) -> disj (inh2 h) (inv yt) ->
  ends (fastaddevaltrans_h2matrix_avector alpha h xt yt) m (fun _ m' => exists Y', vval m' yt Y' /\
    (forall p, p < h2cols h -> bwd_of (cbmat m) (h2_cb h) Y' p = bwd_of (cbmat m) (h2_cb h) Y p + alpha * sum (h2rows h) (fun q => fconj (D q p) * X q))%F /\
    keeps (inv yt) m m').
Proof.
  intros h alpha xt yt D X Xt Y m P1 P2 P3 P4 P5 P6 P7 P8 P9 P10 P11. apply wp_ends.
  eapply (wp_fasttrans2 L (cbmat m) h _ _ alpha xt yt D X Xt Y m); eauto.
Qed.

(** The norm estimators run the power iteration of the represented matrix and leave the memory as it was. *)
Theorem C33_norm2 : forall sq pos rnd ridx cidx h A m,
  h2ready m ridx cidx h A -> (forall a, inh2b h a -> fst a < next m) ->
  ends (norm2_h2matrix sq pos rnd ridx cidx h) m (fun n m' =>
    n = sq (power_it sq pos (h2rows h) (h2cols h) A (fun i j => fconj (A j i)) NORM_STEPS (sq (dot (h2cols h) rnd rnd)) rnd) /\
    keeps (fun _ => False) m m').
Proof.
  intros sq pos rnd ridx cidx h A m Hr Hb. apply wp_ends. unfold norm2_h2matrix.
  eapply (wp_norm2_matrix L) with (F := inh2b h); [exact (h2_mvm_ok L ridx cidx h A)|split; assumption|exact Hb|apply allr|].
  intros m' Hk. split; [reflexivity|exact Hk].
Qed.
Theorem C33_norm2diff : forall sq pos rnd ridx cidx (a b : h2matrix G) A B m,
  h2ready m ridx cidx a A -> h2ready m ridx cidx b B -> h2rows b = h2rows a -> h2cols b = h2cols a ->
  (forall p, inh2b a p \/ inh2b b p -> fst p < next m) ->
  ends (norm2diff_h2matrix sq pos rnd ridx cidx a b) m (fun n m' =>
    n = sq (power_it sq pos (h2rows a) (h2cols a) (fun i j => A i j - B i j)%F (fun i j => fconj (A j i) - fconj (B j i))%F
              NORM_STEPS (sq (dot (h2cols a) rnd rnd)) rnd) /\
    keeps (fun _ => False) m m').
Proof.
  intros sq pos rnd ridx cidx a b A B m Ha Hb E1 E2 Hf. apply wp_ends. unfold norm2diff_h2matrix, norm2diff_matrix.
  pose proof (h2_mvm_ok L ridx cidx a A) as M1. pose proof (h2_mvm_ok L ridx cidx b B) as M2. rewrite E1, E2 in M2.
  eapply (wp_norm2_matrix L) with (F := fun p => inh2b a p \/ inh2b b p); [exact (mvm_ok_diff L _ _ _ _ _ _ _ _ _ _ _ _ M1 M2)| |exact Hf|apply allr|].
  - repeat split; try assumption; try apply Ha; try apply Hb; intros p Hp; apply Hf; auto.
  - intros m' Hk. split; [reflexivity|exact Hk].
Qed.
End C33.

(** ** Example: the basis of [PropCb] for rows and columns; three levels, dense, uniform and zero
    leaves, a block that is only divided into rows *)
Definition xhm2 : list (list GQf) := xcm ++
  [ [gq 1 1]; [gq 2 0; gq 0 3]; [gq 1 2]; []; [gq 3 1]; [gq 4 (-1)] ].
Definition xh00 : h2matrix QcO := H2 xc0 xc0 None (Some (Mat 15 0 1 1 1 true)) None 0 0 1.
Definition xh01 : h2matrix QcO := H2 xc0 xc1 (Some (Mat 16 0 1 1 2 true)) None None 0 0 1.
Definition xh100 : h2matrix QcO := H2 xc10 xc0 (Some (Mat 17 0 1 1 1 true)) None None 0 0 1.
Definition xh110 : h2matrix QcO := H2 xc11 xc0 (Some (Mat 18 0 0 0 1 true)) None None 0 0 1.
Definition xh10 : h2matrix QcO := H2 xc1 xc0 None None (Some [xh100; xh110]) 2 1 3.
Definition xh11a : h2matrix QcO := H2 xc10 xc10 None (Some (Mat 19 0 1 1 1 true)) None 0 0 1.
Definition xh11b : h2matrix QcO := H2 xc11 xc10 None None None 0 0 1.
Definition xh11c : h2matrix QcO := H2 xc10 xc11 None None None 0 0 1.
Definition xh11d : h2matrix QcO := H2 xc11 xc11 None (Some (Mat 20 0 1 1 1 true)) None 0 0 1.
Definition xh11 : h2matrix QcO := H2 xc1 xc1 None None (Some [xh11a; xh11b; xh11c; xh11d]) 2 2 5.
Definition xh : h2matrix QcO := H2 xc xc None None (Some [xh00; xh10; xh01; xh11]) 2 2 11.
(** The represented matrix *)
Definition xhD (p q : nat) : GQf :=
  let M := cbmat (mem_of xhm2) in
  match p, q with
  | 0, 0 => gq 1 1
  | 0, S q' => vsw M xc0 xc1 (mof xhm2 (Mat 16 0 1 1 2 true)) 0 q'
  | 1, 0 => vsw M xc10 xc0 (mof xhm2 (Mat 17 0 1 1 1 true)) 0 0
  | 1, 1 => gq 3 1
  | 2, 2 => gq 4 (-1)
  | _, _ => gq 0 0
  end.
Definition xhA (i j : nat) : GQf := xhD (nth i [1; 2; 0] 0) (nth j [1; 2; 0] 0).

Lemma xh_strict : h2strict xh.
Proof.
  assert (P : forall i s, nth_error [xc0; xc1] i = Some s -> part_of xc 2 i s) by (intros i s H; right; split; [reflexivity|exact H]).
  assert (P1 : forall i s, nth_error [xc10; xc11] i = Some s -> part_of xc1 2 i s) by (intros i s H; right; split; [reflexivity|exact H]).
  apply h2strict_super. intros [|[|i]] [|[|j]] s Hi Hj Hs; try lia; cbn in Hs; injection Hs as <-; cbn [xh00 xh01 xh10 xh11 h2_rb h2_cb];
    (split; [apply P; reflexivity|]); (split; [apply P; reflexivity|]).
  - apply h2strict_f; reflexivity.
  - apply h2strict_u.
  - apply h2strict_super. intros [|[|i]] [|j] s Hi' Hj' Hs; try lia; cbn in Hs; injection Hs as <-; cbn [xh100 xh110 h2_rb h2_cb];
      (split; [apply P1; reflexivity|]); (split; [left; repeat split; reflexivity|]); apply h2strict_u.
  - apply h2strict_super. intros [|[|i]] [|[|j]] s Hi' Hj' Hs; try lia; cbn in Hs; injection Hs as <-; cbn [xh11a xh11b xh11c xh11d h2_rb h2_cb];
      (split; [apply P1; reflexivity|]); (split; [apply P1; reflexivity|]); solve [apply h2strict_f; reflexivity|apply h2strict_zero].
Qed.
Lemma xh_rep : h2rep (cbmat (mem_of xhm2)) (mem_of xhm2) xh xhD.
Proof.
  assert (F : forall A f, mrows A = 1 -> mcols A = 1 -> mval (mem_of xhm2) A (mof xhm2 A) -> mof xhm2 A 0 0 = f 0 0 -> mval (mem_of xhm2) A f).
  { intros A f E1 E2 H E. eapply mval_ext; [exact H|]. intros [|i] [|j] Hi Hj; rewrite ?E1, ?E2 in *; try lia. exact E. }
  eapply (h2rep_super _ _ _ _ _ 2 2 11 (fun i => nth i [1; 2] 0) (fun i => nth i [1; 2] 0)); try reflexivity; try lia.
  - intros [|[|i]] [|[|j]] s Hi Hj Hs; try lia; cbn in Hs; injection Hs as <-; split; reflexivity.
  - intros [|[|i]] [|[|j]] s Hi Hj Hs; try lia; cbn in Hs; injection Hs as <-.
    + apply h2rep_f; try reflexivity. apply F; try reflexivity. apply mval_of; reflexivity.
    + eapply h2rep_u; try reflexivity; [apply mval_of; reflexivity|]. intros [|p] q Hp Hq; [reflexivity|cbn in Hp; lia].
    + eapply (h2rep_super _ _ _ _ _ 2 1 3 (fun _ => 1) (fun _ => 1)); try reflexivity; try lia.
      * intros [|[|i]] [|j] s Hi' Hj' Hs; try lia; cbn in Hs; injection Hs as <-; split; reflexivity.
      * intros [|[|i]] [|j] s Hi' Hj' Hs; try lia; cbn in Hs; injection Hs as <-.
        -- eapply h2rep_u; try reflexivity; [apply mval_of; reflexivity|]. intros [|p] [|q] Hp Hq; cbn in Hp, Hq; try lia. reflexivity.
        -- eapply (h2rep_u _ _ _ _ _ (fun _ _ => gq 0 0)); try reflexivity; [intros p q Hp Hq; cbn in Hp; lia|].
           intros [|p] [|q] Hp Hq; cbn in Hp, Hq; try lia. reflexivity.
    + eapply (h2rep_super _ _ _ _ _ 2 2 5 (fun _ => 1) (fun _ => 1)); try reflexivity; try lia.
      * intros [|[|i]] [|[|j]] s Hi' Hj' Hs; try lia; cbn in Hs; injection Hs as <-; split; reflexivity.
      * intros [|[|i]] [|[|j]] s Hi' Hj' Hs; try lia; cbn in Hs; injection Hs as <-.
        -- apply h2rep_f; try reflexivity. apply F; try reflexivity. apply mval_of; reflexivity.
        -- apply h2rep_zero. intros [|p] [|q] Hp Hq; cbn in Hp, Hq; try lia. reflexivity.
        -- apply h2rep_zero. intros [|p] [|q] Hp Hq; cbn in Hp, Hq; try lia. reflexivity.
        -- apply h2rep_f; try reflexivity. apply F; try reflexivity. apply mval_of; reflexivity.
Qed.
Lemma xh_in a : inh2 xh a -> 15 <= fst a < 21.
Proof.
  assert (Lf : forall (s : h2matrix QcO) b, h2_son s = None -> inh2 s b -> exists A, (h2_u s = Some A \/ h2_f s = Some A) /\ inm A b).
  { intros s b Hs H. inversion H; subst; [eauto|eauto|congruence]. }
  assert (Sn : forall (s : h2matrix QcO) b l, h2_son s = Some l -> h2_u s = None -> h2_f s = None -> inh2 s b -> exists t, In t l /\ inh2 t b).
  { intros s b l Hs Hu Hf H. inversion H; subst; [congruence|congruence|]. rewrite Hs in H0. injection H0 as <-. eauto. }
  assert (Lb : forall s : h2matrix QcO, In s [xh00; xh01; xh100; xh110; xh11a; xh11b; xh11c; xh11d] -> forall b, inh2 s b -> 15 <= fst b < 21).
  { intros s Hs b H. apply Lf in H; [|cbn in Hs; decompose [or] Hs; try contradiction; subst s; reflexivity].
    destruct H as (A & HA & Hb). apply inm_blk in Hb. rewrite Hb. cbn in Hs. decompose [or] Hs; try contradiction; subst s; cbn in HA;
      destruct HA as [HA|HA]; try discriminate HA; injection HA as <-; cbn; lia. }
  intros H. eapply Sn in H; [|reflexivity..]. destruct H as (t & Ht & H). cbn in Ht. decompose [or] Ht; try contradiction; subst t.
  - apply (Lb xh00); [cbn; auto|exact H].
  - eapply Sn in H; [|reflexivity..]. destruct H as (t & Ht' & H). apply (Lb t); [|exact H]. cbn in *. decompose [or] Ht'; try contradiction; subst t; auto 10.
  - apply (Lb xh01); [cbn; auto|exact H].
  - eapply Sn in H; [|reflexivity..]. destruct H as (t & Ht' & H). apply (Lb t); [|exact H]. cbn in *. decompose [or] Ht'; try contradiction; subst t; auto 10.
Qed.
Example C33_hyps : let m := mem_of xhm2 in let x := Vec 10 0 3 true in let y := Vec 12 0 3 true in
  h2ready m xcidx xcidx xh xhA /\ vval m x (vof xhm2 x) /\ vval m y (vof xhm2 y) /\ vdim x = h2cols xh /\ vdim y = h2rows xh /\
  vblk x < next m /\ vblk y < next m /\ (forall a, inh2b xh a -> fst a < next m) /\ disj (inh2b xh) (inv y).
Proof.
  assert (B1 : forall a, incb xc a -> fst a < 7) by (pose proof C30_hyps as H; cbv zeta in H; apply H).
  assert (B : forall a, inh2b xh a -> fst a < 21 /\ fst a <> 12).
  { intros a [H|[H|H]]; [apply xh_in in H|apply B1 in H..]; lia. }
  cbv zeta. split.
  - split; [|split; [exact xh_strict|]].
    + exists xcip, xcip. assert (Hp : perm_at xcidx (cb_off (h2_rb xh)) (h2rows xh) xcip).
      { split; [|split].
        - intros [|[|[|i]]] Hi; try reflexivity. cbn in Hi; lia.
        - intros [|[|[|i]]] Hi; cbn; cbn in Hi; lia.
        - intros [|[|[|i]]] [|[|[|j]]] Hi Hj; cbn; intros; try reflexivity; try discriminate; cbn in Hi, Hj; lia. }
      split; [exact Hp|]. split; [exact Hp|]. eapply h2rep_ext; [exact xh_rep|reflexivity|].
      intros [|[|[|i]]] [|[|[|j]]] Hi Hj; try reflexivity; cbn in Hi, Hj; lia.
    + assert (R : cbready (mem_of xhm2) xc); [|split; exact R]. split; [exact xc_ok|]. split; [exact xc_placed|].
      intros a H. apply xc_in in H as (A & H & (i & j & Hi & Hj & ->)). exists (mof xhm2 A i j).
      assert (V : mval (mem_of xhm2) A (mof xhm2 A)); [|apply V; assumption].
      cbn in H. decompose [or] H; try contradiction; subst A; apply mval_of; reflexivity.
  - do 2 (split; [apply vval_of; reflexivity|]). do 2 (split; [reflexivity|]). do 2 (split; [cbn; lia|]).
    split; [intros a Ha; apply B in Ha; cbn; lia|]. intros a Ha Hb. apply B in Ha. apply inv_blk in Hb. cbn in Hb. lia.
Qed.
(** One entry of a product, computed by the program. *)
Example C33_value :
  match run (addeval_h2matrix_avector xcidx xcidx (gq 2 0) xh (Vec 10 0 3 true) (Vec 12 0 3 true)) (mem_of xhm2) with
  | Ok (_, m') => get m' (va (Vec 12 0 3 true) 2)
  | Err _ => Free
  end = Val (gq 2 0 + gq 2 0 * sum 3 (fun j => xhA 2 j * vof xhm2 (Vec 10 0 3 true) j))%F.
Proof. vm_compute. reflexivity. Qed.

(** ** Refutation: dense leaves of clusters with sons
    [new_full_h2matrix] accepts all bases, but the products take the coefficients of a dense leaf from
    the places where leaf clusters store them.  For the H2-matrix that consists of one dense leaf for
    the root cluster everything but [h2strict] holds, and an entry of the result is wrong. *)
Definition xfm : list (list GQf) := xcm ++ [ [gq 1 0; gq 0 0; gq 0 0; gq 0 0; gq 1 0; gq 0 0; gq 0 0; gq 0 0; gq 1 0] ].
Definition xf : h2matrix QcO := H2 xc xc None (Some (Mat 15 0 3 3 3 true)) None 0 0 1.
Definition xfA (i j : nat) : GQf := mof xfm (Mat 15 0 3 3 3 true) (nth i [1; 2; 0] 0) (nth j [1; 2; 0] 0).
Theorem C33_dense_inner_refuted : let m := mem_of xfm in let x := Vec 10 0 3 true in let y := Vec 12 0 3 true in
  h2repi m xcidx xcidx xf xfA /\ cbready m (h2_rb xf) /\ cbready m (h2_cb xf) /\ vval m x (vof xfm x) /\ vval m y (vof xfm y) /\
  vdim x = h2cols xf /\ vdim y = h2rows xf /\
  vblk x < next m /\ vblk y < next m /\ (forall a, inh2b xf a -> fst a < next m) /\ disj (inh2b xf) (inv y) /\
  match run (addeval_h2matrix_avector xcidx xcidx (gq 1 0) xf x y) m with
  | Ok (_, m') => get m' (va y 2) <> Val (vof xfm y 2 + gq 1 0 * sum 3 (fun j => xfA 2 j * vof xfm x j))%F
  | Err _ => False
  end.
Proof.
  assert (B1 : forall a, incb xc a -> fst a < 7) by (pose proof C30_hyps as H; cbv zeta in H; apply H).
  assert (B : forall a, inh2b xf a -> fst a < 16 /\ fst a <> 12).
  { intros a [H|[H|H]]; [|apply B1 in H; lia..]. inversion H as [? ? ? Hu|? ? ? Hf Hb|? ? ? ? Hs]; subst; try discriminate. injection Hf as <-.
    apply inm_blk in Hb. cbn in Hb. lia. }
  cbv zeta. assert (R : cbready (mem_of xfm) xc).
  { split; [exact xc_ok|]. split; [exact xc_placed|].
    intros a H. apply xc_in in H as (A & H & (i & j & Hi & Hj & ->)). exists (mof xfm A i j).
    assert (V : mval (mem_of xfm) A (mof xfm A)); [|apply V; assumption].
    cbn in H. decompose [or] H; try contradiction; subst A; apply mval_of; reflexivity. }
  split.
  { exists xcip, xcip. assert (Hp : perm_at xcidx (cb_off (h2_rb xf)) (h2rows xf) xcip).
    { split; [|split].
      - intros [|[|[|i]]] Hi; try reflexivity. cbn in Hi; lia.
      - intros [|[|[|i]]] Hi; cbn; cbn in Hi; lia.
      - intros [|[|[|i]]] [|[|[|j]]] Hi Hj; cbn; intros; try reflexivity; try discriminate; cbn in Hi, Hj; lia. }
    split; [exact Hp|]. split; [exact Hp|]. apply h2rep_f; try reflexivity. eapply mval_ext; [apply mval_of; reflexivity|].
    intros [|[|[|i]]] [|[|[|j]]] Hi Hj; try reflexivity; cbn in Hi, Hj; lia. }
  do 2 (split; [exact R|]). do 2 (split; [apply vval_of; reflexivity|]). do 2 (split; [reflexivity|]). do 2 (split; [cbn; lia|]).
  split; [intros a Ha; apply B in Ha; cbn; lia|].
  split; [intros a Ha Hb; apply B in Ha; apply inv_blk in Hb; cbn in Hb; lia|].
  vm_compute. intros H. discriminate H.
Qed.

Print Assumptions C33_addeval.
Print Assumptions C33_addevaltrans.
Print Assumptions C33_mvm.
Print Assumptions C33_fastaddeval.
Print Assumptions C33_fastaddevaltrans.
Print Assumptions C33_norm2.
Print Assumptions C33_norm2diff.
Print Assumptions C33_dense_inner_refuted.
