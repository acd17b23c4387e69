(** * Proofs about sparse patterns and sparse matrices (model: Sparse.v) *)
From Coq Require Import Arith Lia List Bool Permutation FinFun Ring.
From Verif Require Import Fld Prog View Spec Loop Arr Sparse.
Import ListNotations.

Ltac rget H := cbv beta; first [apply rok_bind | idtac];
  rewrite (aval_get _ _ _ _ H) by lia; cbn [rok].
Ltac wget H := cbv beta; lazymatch goal with
  | |- wp _ _ (bind _ _) _ _ => apply wp_bind | _ => idtac end;
  apply wp_lift; rewrite (aval_get _ _ _ _ H) by lia; cbn [rok].

(** ** Patterns *)

(** The pattern [sp] has [rows] x [cols] entries, and row [i] is the list [f i]. *)
Definition pat_rep (sp : spat) (rows cols : nat) (f : nat -> list patentry) : Prop :=
  prows sp = rows /\ pcols sp = cols /\ aval (prow sp) rows f.

Lemma find_entry_spec l c : find_entry l c = true <-> In c (map snd l).
Proof.
  induction l as [|e l IH]; cbn; [split; [discriminate|contradiction]|].
  destruct (Nat.eqb_spec (snd e) c); [tauto|]. rewrite IH. tauto.
Qed.

Lemma rok_new_sparsepattern rows cols (Q : spat -> Prop) : 0 < rows -> 0 < cols ->
  (forall sp, pat_rep sp rows cols (fun _ => []) -> Q sp) ->
  rok (new_sparsepattern rows cols) Q.
Proof.
  intros Hr Hc HQ. unfold new_sparsepattern.
  apply rok_bind, rok_assert; [apply Nat.ltb_lt; exact Hr|].
  apply rok_bind, rok_assert; [apply Nat.ltb_lt; exact Hc|].
  apply rok_bind.
  apply (rok_for (fun i row => aprt row rows (fun k => k < i) (fun _ => []))).
  - apply anew_prt. intros; lia.
  - intros i row Hi H. eapply rok_aset_prt; [exact H|lia|].
    intros a' Ha'. eapply aprt_ext; [exact Ha'| |].
    + cbn. intros; lia.
    + intros k Hk Hp. unfold afupd. destruct (k =? i); reflexivity.
  - cbn. intros row H. apply HQ. split; [reflexivity|]. split; [reflexivity|]. cbn.
    eapply aprt_aval; [|exact H]. auto.
Qed.

Lemma rok_clear_sparsepattern sp rows cols f (Q : spat -> Prop) : pat_rep sp rows cols f ->
  (forall sp', pat_rep sp' rows cols (fun _ => []) -> Q sp') ->
  rok (clear_sparsepattern sp) Q.
Proof.
  intros [<- [<- H]] HQ. unfold clear_sparsepattern. apply rok_bind.
  apply (rok_for (fun i row => aval row (prows sp) (fun k => if k <? i then [] else f k))).
  - eapply aval_ext; [exact H|]. intros. bsplit; reflexivity.
  - intros i row Hi Hv. apply rok_bind. eapply rok_aget; [exact Hv|lia|].
    cbv beta. destruct (Nat.ltb_spec i i); [lia|].
    destruct (f i) eqn:E.
    + cbn. eapply aval_ext; [exact Hv|]. intros k Hk; cbv beta. bsplit; try reflexivity.
      assert (k = i) by lia. subst; auto.
    + eapply rok_aset; [exact Hv|lia|]. intros a' Ha'. eapply aval_ext; [exact Ha'|].
      intros k Hk. unfold afupd. bsplit; reflexivity.
  - cbn. intros row Hv. apply HQ. split; [reflexivity|]. split; [reflexivity|]. cbn.
    eapply aval_ext; [exact Hv|]. intros; cbv beta. bsplit; reflexivity.
Qed.

Lemma rok_addnz_sparsepattern sp rows cols f r c (Q : spat -> Prop) : pat_rep sp rows cols f ->
  r < rows -> c < cols ->
  (forall sp', pat_rep sp' rows cols (fun i => if (i =? r) && negb (find_entry (f r) c)
                                       then (r, c) :: f i else f i) -> Q sp') ->
  rok (addnz_sparsepattern sp r c) Q.
Proof.
  intros [<- [<- H]] Hr Hc HQ. unfold addnz_sparsepattern.
  apply rok_bind, rok_assert; [apply Nat.ltb_lt; exact Hr|].
  apply rok_bind, rok_assert; [apply Nat.ltb_lt; exact Hc|].
  apply rok_bind. eapply rok_aget; [exact H|lia|].
  destruct (find_entry (f r) c) eqn:E.
  - apply HQ. split; [reflexivity|]. split; [reflexivity|].
    eapply aval_ext; [exact H|]. intros k _. destruct (k =? r); reflexivity.
  - apply rok_bind. eapply rok_aset; [exact H|lia|]. intros a' Ha'. cbn.
    apply HQ. split; [reflexivity|]. split; [reflexivity|]. cbn.
    eapply aval_ext; [exact Ha'|]. intros k _. unfold afupd.
    destruct (Nat.eqb_spec k r); [subst|]; reflexivity.
Qed.

(** ** Matrices *)
Section SparseP.
Context {K : fops} (L : ring_laws K).
Add Ring Kring : (rl_ring K L).
Implicit Types (rs cs : nat -> nat) (vs : nat -> K) (a : smat K).

(** A well-formed compressed-row matrix with row starts [rs], column indices
    [cs] and coefficients [vs]. *)
Record swf a rs cs vs : Prop := Swf {
  sw_rs : aval (srow a) (srows a + 1) rs;
  sw_cs : aval (scol a) (snz a) cs;
  sw_vs : aval (scoeff a) (snz a) vs;
  sw_0 : rs 0 = 0;
  sw_mono : forall i, i < srows a -> rs i <= rs (S i);
  sw_n : rs (srows a) = snz a;
  sw_cols : forall k, k < snz a -> cs k < scols a
}.

(** Entry (i,j) of the matrix represented: the sum of all coefficients stored in
    row [i] with column [j]. *)
Definition sden rs cs vs (i j : nat) : K :=
  sum (rs (S i) - rs i) (fun t => if cs (rs i + t) =? j then vs (rs i + t) else f0).

(** Position (i,j) is stored. *)
Definition stored rs cs (i j : nat) : Prop :=
  exists k, rs i <= k < rs (S i) /\ cs k = j.

(** No position is stored twice. *)
Definition snodup (rows : nat) rs cs : Prop :=
  forall i k l, i < rows -> rs i <= k < rs (S i) -> rs i <= l < rs (S i) -> cs k = cs l -> k = l.

Lemma rs_le a rs cs vs i j : swf a rs cs vs -> i <= j -> j <= srows a -> rs i <= rs j.
Proof.
  intros H Hij. induction Hij as [|j Hij IH]; intros Hj; [lia|].
  pose proof (sw_mono _ _ _ _ H j ltac:(lia)). lia.
Qed.

Lemma rs_nz a rs cs vs i : swf a rs cs vs -> i <= srows a -> rs i <= snz a.
Proof. intros H Hi. rewrite <- (sw_n _ _ _ _ H). eapply rs_le; eauto. Qed.

(** An index belongs to one row only. *)
Lemma row_unique a rs cs vs i i' k : swf a rs cs vs -> i < srows a -> i' < srows a ->
  rs i <= k < rs (S i) -> rs i' <= k < rs (S i') -> i = i'.
Proof.
  intros H Hi Hi' Hk Hk'.
  destruct (Nat.lt_trichotomy i i') as [Hl|[He|Hl]]; [|exact He|]; exfalso.
  - pose proof (rs_le _ _ _ _ (S i) i' H ltac:(lia) ltac:(lia)). lia.
  - pose proof (rs_le _ _ _ _ (S i') i H ltac:(lia) ltac:(lia)). lia.
Qed.

Lemma find_col_spec (col : arr nat) nz cs c i n (Q : nat -> Prop) :
  aval col nz cs -> i + n <= nz ->
  (forall r, i <= r <= i + n -> (forall k, i <= k < r -> cs k <> c) ->
     (r < i + n -> cs r = c) -> Q r) ->
  rok (find_col col c i n) Q.
Proof.
  intros H. revert i. induction n as [|n IH]; intros i Hi HQ; cbn.
  - apply HQ; lia.
  - rget H. destruct (Nat.eqb_spec (cs i) c) as [E|E].
    + cbn. apply HQ; [lia|intros; lia|auto].
    + apply IH; [lia|]. intros r Hr Hk Hc. apply HQ; [lia| |intros; apply Hc; lia].
      intros k Hk'. destruct (Nat.eq_dec k i) as [->|]; [exact E|apply Hk; lia].
Qed.

(** Transposition of two indices. *)
Definition tp (p q k : nat) : nat := if k =? p then q else if k =? q then p else k.

Lemma swap_cc_spec (col : arr nat) (coeff : arr K) nz cs vs i1 i2 (Q : arr nat * arr K -> Prop) :
  aval col nz cs -> aval coeff nz vs -> i1 < nz -> i2 < nz ->
  (forall col' coeff', aval col' nz (fun k => cs (tp i1 i2 k)) ->
     aval coeff' nz (fun k => vs (tp i1 i2 k)) -> Q (col', coeff')) ->
  rok (swap_cc i1 i2 col coeff) Q.
Proof.
  intros Hc Hv H1 H2 HQ. unfold swap_cc.
  rget Hc. rget Hc.
  apply rok_bind. eapply rok_aset; [exact Hc|exact H1|]. intros c1 Hc1.
  apply rok_bind. eapply rok_aset; [exact Hc1|exact H2|]. intros c2 Hc2.
  rget Hv. rget Hv.
  apply rok_bind. eapply rok_aset; [exact Hv|exact H1|]. intros v1 Hv1.
  apply rok_bind. eapply rok_aset; [exact Hv1|exact H2|]. intros v2 Hv2.
  cbn. apply HQ.
  - eapply aval_ext; [exact Hc2|]. intros k Hk. unfold afupd, tp. bsplit; subst; reflexivity.
  - eapply aval_ext; [exact Hv2|]. intros k Hk. unfold afupd, tp. bsplit; subst; reflexivity.
Qed.

(** Sums are invariant under exchanging two indices. *)
Lemma sum_fupd n (f : nat -> K) k v : k < n ->
  sum n (fun i => if i =? k then v else f i) = (sum n f - f k + v)%F.
Proof.
  intros Hk. induction n as [|n IH]; [lia|]. cbn.
  destruct (Nat.eqb_spec n k) as [->|E].
  - rewrite (sum_ext k (fun i => if i =? k then v else f i) f); [ring|].
    intros i Hi. bsplit; reflexivity.
  - rewrite IH by lia. ring.
Qed.

Lemma sum_tp n (f : nat -> K) p q : p < n -> q < n ->
  sum n (fun i => f (tp p q i)) = sum n f.
Proof.
  intros Hp Hq. unfold tp.
  destruct (Nat.eq_dec p q) as [->|Hne].
  - apply sum_ext. intros i _. bsplit; subst; reflexivity.
  - rewrite (sum_ext n _ (fun i => if i =? p then f q else (fun i => if i =? q then f p else f i) i)).
    2:{ intros i _. bsplit; reflexivity. }
    rewrite (sum_fupd) by exact Hp. rewrite (sum_fupd) by exact Hq.
    cbv beta. bsplit. ring.
Qed.

Lemma tp_invol p q k : tp p q (tp p q k) = k.
Proof. unfold tp. bsplit; subst; lia. Qed.

(** ** sort_sparsematrix *)
Lemma rok_sort_sparsematrix a rs cs vs (Q : smat K -> Prop) :
  swf a rs cs vs ->
  (forall a' cs' vs',
     srows a' = srows a -> scols a' = scols a -> snz a' = snz a -> srow a' = srow a ->
     swf a' rs cs' vs' ->
     (forall i j, i < srows a -> sden rs cs' vs' i j = sden rs cs vs i j) ->
     (forall i j, i < srows a -> stored rs cs' i j <-> stored rs cs i j) ->
     (snodup (srows a) rs cs -> snodup (srows a) rs cs') ->
     (forall i, i < srows a -> stored rs cs i i -> rs i < rs (S i) /\ cs' (rs i) = i) ->
     Q a') ->
  rok (sort_sparsematrix a) Q.
Proof.
  intros H HQ. unfold sort_sparsematrix. apply rok_bind.
  apply (rok_for (fun r '(col, coeff) => exists cs' vs',
     swf (SMat (srows a) (scols a) (snz a) (srow a) col coeff) rs cs' vs' /\
     (forall i j, i < srows a -> sden rs cs' vs' i j = sden rs cs vs i j) /\
     (forall i j, i < srows a -> stored rs cs' i j <-> stored rs cs i j) /\
     (snodup (srows a) rs cs -> snodup (srows a) rs cs') /\
     (forall i, i < r -> stored rs cs i i -> rs i < rs (S i) /\ cs' (rs i) = i))).
  - exists cs, vs. split; [destruct H; constructor; assumption|].
    repeat split; auto; lia.
  - intros r [col coeff] Hr [cs' [vs' [Hw [Hd [Hst [Hnd Hdg]]]]]].
    pose proof (sw_rs _ _ _ _ H) as Hrs.
    rget Hrs. rget Hrs. replace (r + 1) with (S r) by lia.
    pose proof (sw_mono _ _ _ _ H r ltac:(lia)) as Hm.
    pose proof (rs_nz _ _ _ _ (S r) H ltac:(lia)) as Hnz.
    pose proof (sw_cs _ _ _ _ Hw) as Hcs. pose proof (sw_vs _ _ _ _ Hw) as Hvs.
    cbn in Hcs, Hvs.
    apply rok_bind. eapply find_col_spec; [exact Hcs|lia|].
    intros j Hj Hbef Hat.
    destruct (Nat.ltb_spec j (rs (S r))) as [Hlt|Hge].
    + eapply swap_cc_spec; [exact Hcs|exact Hvs|lia|lia|].
      intros col' coeff' Hc' Hv'.
      set (t := tp (rs r) j) in *.
      assert (Ht : forall i, i < srows a -> forall k, rs i <= k < rs (S i) -> rs i <= t k < rs (S i)).
      { intros i Hi k Hk. unfold t, tp.
        destruct (Nat.eqb_spec k (rs r)) as [E|E]; [|destruct (Nat.eqb_spec k j) as [E'|E']]; auto.
        - assert (i = r) by (eapply (row_unique a rs cs vs i r k); eauto; lia). subst; lia.
        - assert (i = r) by (eapply (row_unique a rs cs vs i r k); eauto; lia). subst; lia. }
      exists (fun k => cs' (t k)), (fun k => vs' (t k)). split; [|split; [|split; [|split]]].
      * destruct Hw; constructor; cbn in *; auto.
        intros k Hk. apply sw_cols0. unfold t, tp. bsplit; lia.
      * intros i k Hi. rewrite <- Hd by exact Hi. unfold sden.
        destruct (Nat.eq_dec i r) as [->|Hne].
        -- rewrite <- (sum_tp (rs (S r) - rs r)
              (fun t => if cs' (rs r + t) =? k then vs' (rs r + t) else f0) 0 (j - rs r)) by lia.
           apply sum_ext. intros u Hu.
           replace (t (rs r + u)) with (rs r + tp 0 (j - rs r) u); [reflexivity|].
           unfold t, tp. bsplit; lia.
        -- apply sum_ext. intros u Hu.
           replace (t (rs i + u)) with (rs i + u); [reflexivity|].
           unfold t, tp.
           destruct (Nat.eqb_spec (rs i + u) (rs r)) as [E|E];
             [|destruct (Nat.eqb_spec (rs i + u) j) as [E'|E']]; auto.
           ++ exfalso. apply Hne. eapply (row_unique a rs cs vs i r (rs i + u)); eauto; lia.
           ++ exfalso. apply Hne. eapply (row_unique a rs cs vs i r (rs i + u)); eauto; lia.
      * intros i k Hi. rewrite <- Hst by exact Hi. split; intros [q [Hq E]].
        -- exists (t q). split; [apply Ht; assumption|exact E].
        -- exists (t q). split; [apply Ht; assumption|]. unfold t. rewrite tp_invol. exact E.
      * intros Hn. specialize (Hnd Hn). intros i k l Hi Hk Hl E.
        apply (Hnd i) in E; auto.
        rewrite <- (tp_invol (rs r) j k), <- (tp_invol (rs r) j l).
        unfold t in E. rewrite E. reflexivity.
      * intros i Hi Hs. destruct (Nat.eq_dec i r) as [->|Hne].
        -- split; [lia|]. unfold t, tp. rewrite Nat.eqb_refl. apply Hat. lia.
        -- destruct (Hdg i ltac:(lia) Hs) as [Hlt' E]. split; [exact Hlt'|].
           replace (t (rs i)) with (rs i); [exact E|].
           unfold t, tp.
           destruct (Nat.eqb_spec (rs i) (rs r)) as [E1|E1];
             [|destruct (Nat.eqb_spec (rs i) j) as [E'|E']]; auto.
           ++ exfalso. apply Hne. eapply (row_unique a rs cs vs i r (rs i)); eauto; lia.
           ++ exfalso. apply Hne. eapply (row_unique a rs cs vs i r (rs i)); eauto; lia.
    + cbn. exists cs', vs'. split; [exact Hw|]. split; [exact Hd|]. split; [exact Hst|].
      split; [exact Hnd|]. intros i Hi Hs.
      destruct (Nat.eq_dec i r) as [->|Hne]; [|apply Hdg; [lia|exact Hs]].
      exfalso. apply (Hst r r) in Hs; [|lia]. destruct Hs as [k [Hk E]].
      apply (Hbef k); [lia|exact E].
  - cbn. intros [col coeff] [cs' [vs' [Hw [Hd [Hst [Hnd Hdg]]]]]]. cbn.
    eapply HQ; try exact Hw; auto.
Qed.

(** ** Entry access *)
Lemma sden_nostored rs cs vs i j : ~ stored rs cs i j -> sden rs cs vs i j = f0.
Proof.
  intros H. unfold sden. apply (sum_0 L). intros t Ht.
  destruct (Nat.eqb_spec (cs (rs i + t)) j) as [E|E]; [|reflexivity].
  exfalso. apply H. exists (rs i + t). split; [lia|exact E].
Qed.

Lemma sden_stored rows rs cs vs i k : snodup rows rs cs -> i < rows ->
  rs i <= k < rs (S i) -> sden rs cs vs i (cs k) = vs k.
Proof.
  intros Hn Hi Hk. unfold sden. rewrite (sum_single L _ (k - rs i)); [| |].
  - cbv beta. replace (rs i + (k - rs i)) with k by lia. rewrite Nat.eqb_refl. reflexivity.
  - lia.
  - intros t Ht Hne. destruct (Nat.eqb_spec (cs (rs i + t)) (cs k)) as [E|E]; [|reflexivity].
    apply (Hn i) in E; auto; lia.
Qed.

(** Changing one coefficient changes one entry by the difference. *)
Lemma sden_fupd a rs cs vs r k v i j : swf a rs cs vs -> r < srows a -> i < srows a ->
  rs r <= k < rs (S r) ->
  sden rs cs (fun t => if t =? k then v else vs t) i j =
  if (i =? r) && (j =? cs k) then (sden rs cs vs i j + (v - vs k))%F else sden rs cs vs i j.
Proof.
  intros H Hr Hi Hk. unfold sden.
  destruct (Nat.eqb_spec i r) as [->|Hne]; cbn [andb].
  - set (u := k - rs r).
    destruct (Nat.eqb_spec j (cs k)) as [->|Hj].
    + rewrite (sum_ext _ _ (fun t => if t =? u then v else
         (fun t => if cs (rs r + t) =? cs k then vs (rs r + t) else f0) t)).
      2:{ intros t Ht. unfold u.
          destruct (Nat.eqb_spec (rs r + t) k), (Nat.eqb_spec t (k - rs r)); try lia; [|reflexivity].
          replace (rs r + t) with k by lia. rewrite Nat.eqb_refl. reflexivity. }
      rewrite (sum_fupd) by (unfold u; lia). cbv beta. unfold u.
      replace (rs r + (k - rs r)) with k by lia. rewrite Nat.eqb_refl. ring.
    + apply sum_ext. intros t Ht.
      destruct (Nat.eqb_spec (cs (rs r + t)) j) as [E|E]; [|reflexivity].
      destruct (Nat.eqb_spec (rs r + t) k) as [E'|E']; [|reflexivity].
      subst k. congruence.
  - apply sum_ext. intros t Ht.
    destruct (Nat.eqb_spec (rs i + t) k) as [E'|E']; [|reflexivity].
    exfalso. apply Hne. eapply (row_unique a rs cs vs i r k); eauto; lia.
Qed.

Lemma rok_entry a rs cs vs r c (Q : nat -> Prop) : swf a rs cs vs -> r < srows a ->
  (forall k, rs r <= k <= rs (S r) -> (forall l, rs r <= l < k -> cs l <> c) ->
     (k < rs (S r) -> cs k = c) -> Q k) ->
  rok (let* s := aget (srow a) r in
       let* e := aget (srow a) (r + 1) in
       find_col (scol a) c s (e - s)) Q.
Proof.
  intros H Hr HQ. pose proof (sw_rs _ _ _ _ H) as Hrs. rget Hrs. rget Hrs.
  replace (r + 1) with (S r) by lia.
  pose proof (sw_mono _ _ _ _ H r ltac:(lia)) as Hm.
  pose proof (rs_nz _ _ _ _ (S r) H ltac:(lia)) as Hnz.
  eapply find_col_spec; [exact (sw_cs _ _ _ _ H)|lia|].
  intros k Hk Hb Ha. apply HQ; auto; [lia|]. intros; apply Ha; lia.
Qed.

Lemma rok_addentry_sparsematrix a rs cs vs r c x (Q : K * smat K -> Prop) :
  swf a rs cs vs -> r < srows a -> c < scols a -> stored rs cs r c ->
  (forall k a', rs r <= k < rs (S r) -> cs k = c -> srows a' = srows a -> scols a' = scols a ->
     swf a' rs cs (fun t => if t =? k then (vs k + x)%F else vs t) -> Q ((vs k + x)%F, a')) ->
  rok (addentry_sparsematrix a r c x) Q.
Proof.
  intros H Hr Hc [k0 [Hk0 E0]] HQ. unfold addentry_sparsematrix.
  apply rok_bind, rok_assert; [apply Nat.ltb_lt; exact Hr|].
  apply rok_bind, rok_assert; [apply Nat.ltb_lt; exact Hc|].
  pose proof (sw_rs _ _ _ _ H) as Hrs. rget Hrs. rget Hrs.
  replace (r + 1) with (S r) by lia.
  pose proof (sw_mono _ _ _ _ H r ltac:(lia)) as Hm.
  pose proof (rs_nz _ _ _ _ (S r) H ltac:(lia)) as Hnz.
  apply rok_bind. eapply find_col_spec; [exact (sw_cs _ _ _ _ H)|lia|].
  intros k Hk Hb Ha.
  assert (Hlt : k < rs (S r)).
  { destruct (Nat.lt_ge_cases k (rs (S r))); [assumption|]. exfalso. apply (Hb k0); [lia|exact E0]. }
  specialize (Ha ltac:(lia)).
  apply rok_bind, rok_assert; [apply Nat.ltb_lt; exact Hlt|].
  pose proof (sw_cs _ _ _ _ H) as Hcs. rget Hcs.
  apply rok_bind, rok_assert; [apply Nat.eqb_eq; exact Ha|].
  pose proof (sw_vs _ _ _ _ H) as Hvs. rget Hvs.
  apply rok_bind. eapply rok_aset; [exact Hvs|lia|]. intros v' Hv'. cbn.
  eapply HQ with (k := k); auto; [lia|]. destruct H; constructor; cbn; auto.
Qed.

Lemma rok_setentry_sparsematrix a rs cs vs r c x (Q : smat K -> Prop) :
  swf a rs cs vs -> r < srows a -> c < scols a -> stored rs cs r c ->
  (forall k a', rs r <= k < rs (S r) -> cs k = c -> srows a' = srows a -> scols a' = scols a ->
     swf a' rs cs (fun t => if t =? k then x else vs t) -> Q a') ->
  rok (setentry_sparsematrix a r c x) Q.
Proof.
  intros H Hr Hc [k0 [Hk0 E0]] HQ. unfold setentry_sparsematrix.
  apply rok_bind, rok_assert; [apply Nat.ltb_lt; exact Hr|].
  apply rok_bind, rok_assert; [apply Nat.ltb_lt; exact Hc|].
  pose proof (sw_rs _ _ _ _ H) as Hrs. rget Hrs. rget Hrs.
  replace (r + 1) with (S r) by lia.
  pose proof (sw_mono _ _ _ _ H r ltac:(lia)) as Hm.
  pose proof (rs_nz _ _ _ _ (S r) H ltac:(lia)) as Hnz.
  apply rok_bind. eapply find_col_spec; [exact (sw_cs _ _ _ _ H)|lia|].
  intros k Hk Hb Ha.
  assert (Hlt : k < rs (S r)).
  { destruct (Nat.lt_ge_cases k (rs (S r))); [assumption|]. exfalso. apply (Hb k0); [lia|exact E0]. }
  specialize (Ha ltac:(lia)).
  apply rok_bind, rok_assert; [apply Nat.ltb_lt; exact Hlt|].
  pose proof (sw_cs _ _ _ _ H) as Hcs. rget Hcs.
  apply rok_bind, rok_assert; [apply Nat.eqb_eq; exact Ha|].
  pose proof (sw_vs _ _ _ _ H) as Hvs.
  apply rok_bind. eapply rok_aset; [exact Hvs|lia|]. intros v' Hv'. cbn.
  eapply HQ with (k := k); auto; [lia|]. destruct H; constructor; cbn; auto.
Qed.

(** Unstored positions: the search runs off the row and the assertion stops the program. *)
Lemma find_col_none (col : arr nat) nz cs c i n : aval col nz cs -> i + n <= nz ->
  (forall k, i <= k < i + n -> cs k <> c) -> find_col col c i n = Ok (i + n).
Proof.
  intros H. revert i. induction n as [|n IH]; intros i Hi Hn; cbn.
  - rewrite Nat.add_0_r. reflexivity.
  - rewrite (aval_get _ _ _ _ H) by lia. cbn.
    destruct (Nat.eqb_spec (cs i) c) as [E|E]; [exfalso; apply (Hn i); [lia|exact E]|].
    rewrite IH by (try lia; intros; apply Hn; lia). f_equal. lia.
Qed.

Lemma addentry_unstored a rs cs vs r c x : swf a rs cs vs -> r < srows a ->
  ~ stored rs cs r c -> addentry_sparsematrix a r c x = Err EAssert.
Proof.
  intros H Hr Hn. unfold addentry_sparsematrix.
  pose proof (sw_rs _ _ _ _ H) as Hrs.
  apply Nat.ltb_lt in Hr as Hr'. rewrite Hr'. cbn.
  destruct (c <? scols a); [cbn|reflexivity].
  rewrite !(aval_get _ _ _ _ Hrs) by lia. cbn. replace (r + 1) with (S r) by lia.
  pose proof (sw_mono _ _ _ _ H r ltac:(lia)) as Hm.
  pose proof (rs_nz _ _ _ _ (S r) H ltac:(lia)) as Hnz.
  rewrite (find_col_none _ _ _ _ _ _ (sw_cs _ _ _ _ H)); [|lia|].
  - cbn. destruct (Nat.ltb_spec (rs r + (rs (S r) - rs r)) (rs (S r))); [lia|reflexivity].
  - intros k Hk E. apply Hn. exists k. split; [lia|exact E].
Qed.

Lemma setentry_unstored a rs cs vs r c x : swf a rs cs vs -> r < srows a ->
  ~ stored rs cs r c -> setentry_sparsematrix a r c x = Err EAssert.
Proof.
  intros H Hr Hn. unfold setentry_sparsematrix.
  pose proof (sw_rs _ _ _ _ H) as Hrs.
  apply Nat.ltb_lt in Hr as Hr'. rewrite Hr'. cbn.
  destruct (c <? scols a); [cbn|reflexivity].
  rewrite !(aval_get _ _ _ _ Hrs) by lia. cbn. replace (r + 1) with (S r) by lia.
  pose proof (sw_mono _ _ _ _ H r ltac:(lia)) as Hm.
  pose proof (rs_nz _ _ _ _ (S r) H ltac:(lia)) as Hnz.
  rewrite (find_col_none _ _ _ _ _ _ (sw_cs _ _ _ _ H)); [|lia|].
  - cbn. destruct (Nat.ltb_spec (rs r + (rs (S r) - rs r)) (rs (S r))); [lia|reflexivity].
  - intros k Hk E. apply Hn. exists k. split; [lia|exact E].
Qed.

Lemma rok_clear_sparsematrix a rs cs vs (Q : smat K -> Prop) : swf a rs cs vs ->
  (forall a', srows a' = srows a -> scols a' = scols a -> swf a' rs cs (fun _ => f0) -> Q a') ->
  rok (clear_sparsematrix a) Q.
Proof.
  intros H HQ. unfold clear_sparsematrix. apply rok_bind.
  apply (rok_for (fun i co => aval co (snz a) (fun k => if k <? i then f0 else vs k))).
  - eapply aval_ext; [exact (sw_vs _ _ _ _ H)|]. intros; bsplit; reflexivity.
  - intros i co Hi Hv. eapply rok_aset; [exact Hv|lia|]. intros v' Hv'.
    eapply aval_ext; [exact Hv'|]. intros k Hk. unfold afupd. bsplit; reflexivity.
  - cbn. intros co Hv. apply HQ; auto. destruct H; constructor; cbn; auto.
    eapply aval_ext; [exact Hv|]. intros; cbv beta. bsplit; reflexivity.
Qed.

(** ** Constructors *)
Lemma rok_new_raw rows cols nz (Q : smat K -> Prop) :
  (forall a, srows a = rows -> scols a = cols -> snz a = nz -> aval (srow a) (rows + 1) (fun _ => 0) ->
     scol a = anew nz -> scoeff a = anew nz -> Q a) ->
  rok (@new_raw_sparsematrix K rows cols nz) Q.
Proof.
  intros HQ. unfold new_raw_sparsematrix. apply rok_bind.
  apply (rok_for (fun i row => aprt row (rows + 1) (fun k => k < i) (fun _ => 0))).
  - apply anew_prt. intros; lia.
  - intros i row Hi H. eapply rok_aset_prt; [exact H|lia|].
    intros a' Ha'. eapply aprt_ext; [exact Ha'| |].
    + cbn. intros; lia.
    + intros k Hk Hp. unfold afupd. destruct (k =? i); reflexivity.
  - cbn. intros row H. apply HQ; auto. cbn. eapply aprt_aval; [|exact H]. auto.
Qed.

Lemma rok_new_identity_sparsematrix rows cols (Q : smat K -> Prop) :
  (forall a, srows a = rows -> scols a = cols ->
     swf a (fun i => Nat.min i (Nat.min rows cols)) (fun k => k) (fun _ => f1) -> Q a) ->
  rok (new_identity_sparsematrix rows cols) Q.
Proof.
  intros HQ. unfold new_identity_sparsematrix. set (n := Nat.min rows cols).
  assert (Hn : n <= rows /\ n <= cols) by (unfold n; lia).
  apply rok_bind.
  apply (rok_for (fun i '(row, col, coeff) =>
     aprt row (rows + 1) (fun k => k < i) (fun k => k) /\ aprt col n (fun k => k < i) (fun k => k)
     /\ aprt coeff n (fun k => k < i) (fun _ => @f1 K))).
  - repeat split; try apply repeat_length; intros; lia.
  - intros i [[row col] coeff] Hi [H1 [H2 H3]].
    apply rok_bind. eapply rok_aset_prt; [exact H1|lia|]. intros r' Hr'.
    apply rok_bind. eapply rok_aset_prt; [exact H2|lia|]. intros c' Hc'.
    apply rok_bind. eapply rok_aset_prt; [exact H3|lia|]. intros v' Hv'. cbn.
    split; [|split].
    + eapply aprt_ext; [exact Hr'|cbn; intros; lia|]. intros k _ _. unfold afupd. bsplit; auto.
    + eapply aprt_ext; [exact Hc'|cbn; intros; lia|]. intros k _ _. unfold afupd. bsplit; auto.
    + eapply aprt_ext; [exact Hv'|cbn; intros; lia|]. intros k _ _. unfold afupd. bsplit; auto.
  - intros [[row col] coeff] [H1 [H2 H3]]. cbn in H1, H2, H3.
    apply rok_bind.
    apply (rok_for (fun i row => aprt row (rows + 1) (fun k => k < i) (fun k => Nat.min k n))).
    + eapply aprt_ext; [exact H1|auto|]. intros; lia.
    + intros i r1 Hi Hr1. eapply rok_aset_prt; [exact Hr1|lia|]. intros r' Hr'.
      eapply aprt_ext; [exact Hr'|cbn; intros; lia|]. intros k _ _. unfold afupd. bsplit; auto; lia.
    + intros r1 Hr1. cbn [rok]. apply HQ; auto. fold n. clearbody n.
      constructor; cbn [srow scol scoeff srows scols snz].
      * eapply aprt_aval; [|exact Hr1]. intros; cbv beta; lia.
      * eapply aprt_aval; [|exact H2]. intros; cbv beta; lia.
      * eapply aprt_aval; [|exact H3]. intros; cbv beta; lia.
      * reflexivity.
      * intros. lia.
      * lia.
      * intros. lia.
Qed.

(** *** new_zero_sparsematrix *)
Section NewZero.
Variables (sp : spat) (rows cols : nat) (f : nat -> list patentry).
Hypothesis Hsp : pat_rep sp rows cols f.
Hypothesis Hrow : forall i e, i < rows -> In e (f i) -> fst e = i /\ snd e < cols.
Hypothesis Hnd : forall i, i < rows -> NoDup (f i).

Fixpoint off (i : nat) : nat := match i with O => 0 | S i' => off i' + length (f i') end.

Definition cl : list nat := concat (map (fun i => map snd (f i)) (seq 0 rows)).

Lemma off_mono i j : i <= j -> off i <= off j.
Proof. induction 1; cbn; lia. Qed.

Lemma cl_nth_gen n lo i t : lo <= i < lo + n -> t < length (f i) ->
  nth (off i - off lo + t) (concat (map (fun i => map snd (f i)) (seq lo n))) 0
  = snd (nth t (f i) (0, 0)).
Proof.
  revert lo. induction n as [|n IH]; intros lo Hi Ht; [lia|]. cbn [seq map concat].
  destruct (Nat.eq_dec i lo) as [->|Hne].
  - rewrite Nat.sub_diag. cbn [plus]. rewrite app_nth1 by (rewrite map_length; exact Ht).
    change 0 with (snd (0, 0)) at 1. apply map_nth.
  - pose proof (off_mono (S lo) i ltac:(lia)). cbn [off] in H.
    rewrite app_nth2 by (rewrite map_length; lia). rewrite map_length.
    rewrite <- (IH (S lo)) by lia. f_equal. cbn [off]. lia.
Qed.

Lemma cl_nth i t : i < rows -> t < length (f i) -> nth (off i + t) cl 0 = snd (nth t (f i) (0, 0)).
Proof.
  intros Hi Ht. pose proof (cl_nth_gen rows 0 i t ltac:(lia) Ht) as H. cbn [off] in H.
  rewrite Nat.sub_0_r in H. exact H.
Qed.

Lemma rfold_count {A} (l : list A) n : rfold (fun _ nz => Ok (nz + 1)) l n = Ok (n + length l).
Proof.
  revert n. induction l as [|x l IH]; intros n; cbn; [f_equal; lia|]. rewrite IH. f_equal. lia.
Qed.

Lemma rok_new_zero_sparsematrix (Q : smat K -> Prop) :
  (forall a cs, srows a = rows -> scols a = cols -> swf a off cs (fun _ => f0) ->
     snodup rows off cs ->
     (forall i j, i < rows -> stored off cs i j <-> In (i, j) (f i)) ->
     (forall i, i < rows -> stored off cs i i -> off i < off (S i) /\ cs (off i) = i) ->
     Q a) ->
  rok (new_zero_sparsematrix sp) Q.
Proof.
  intros HQ. unfold new_zero_sparsematrix. destruct Hsp as [-> [-> Hv]].
  apply rok_bind.
  apply (rok_for (fun i nz => nz = off i)).
  { reflexivity. }
  { intros i nz Hi ->. rget Hv. rewrite rfold_count. reflexivity. }
  cbn [plus]. intros nz ->.
  apply rok_bind. apply rok_new_raw. intros A _ _ _ HA1 HA2 HA3. rewrite HA2, HA3.
  apply rok_bind.
  apply (rok_for (fun i '(j, row, col, coeff) => j = off i /\
     aval row (rows + 1) (fun k => if k <? i then off k else 0) /\
     aprt col (off rows) (fun k => k < off i) (fun k => nth k cl 0) /\
     aprt coeff (off rows) (fun k => k < off i) (fun _ => @f0 K))).
  { split; [reflexivity|]. split; [|split].
    - eapply aval_ext; [exact HA1|]. intros; bsplit; reflexivity.
    - apply anew_prt. cbn. intros; lia.
    - apply anew_prt. cbn. intros; lia. }
  { intros i [[[j row] col] coeff] Hi [-> [H1 [H2 H3]]].
    apply rok_bind. eapply rok_aset; [exact H1|lia|]. intros row' Hrow'.
    rget Hv. apply rok_bind.
    assert (Hgen : forall l2 l1 col coeff, f i = l1 ++ l2 ->
       aprt col (off rows) (fun k => k < off i + length l1) (fun k => nth k cl 0) ->
       aprt coeff (off rows) (fun k => k < off i + length l1) (fun _ => @f0 K) ->
       rok (rfold (fun (e : patentry) '(j, col, coeff) =>
          do* rassert (fst e =? i) in
          let* col := aset col j (snd e) in
          let* coeff := aset coeff j f0 in
          Ok (j + 1, col, coeff)) l2 (off i + length l1, col, coeff))
        (fun '(j, col, coeff) => j = off (S i) /\
          aprt col (off rows) (fun k => k < off (S i)) (fun k => nth k cl 0) /\
          aprt coeff (off rows) (fun k => k < off (S i)) (fun _ => @f0 K))).
    { induction l2 as [|e l2 IH]; intros l1 c1 v1 E Hc1 Hv1; cbn.
      - rewrite app_nil_r in E. rewrite E. auto.
      - destruct (Hrow i e) as [He1 He2]; [lia|rewrite E; apply in_elt|].
        rewrite (proj2 (Nat.eqb_eq _ _) He1). cbn [rassert rbind].
        assert (Hlen : length (f i) = length l1 + S (length l2)) by (rewrite E, app_length; reflexivity).
        pose proof (off_mono (S i) rows ltac:(lia)) as Hom. cbn [off] in Hom.
        apply rok_bind, rok_bind. eapply rok_aset_prt; [exact Hc1|lia|]. intros c2 Hc2.
        apply rok_bind. eapply rok_aset_prt; [exact Hv1|lia|]. intros v2 Hv2.
        cbn [rok]. change (off i + length (f i)) with (off (S i)).
        replace (off i + length l1 + 1) with (off i + length (l1 ++ [e])) by (rewrite app_length; cbn; lia).
        apply IH.
        + rewrite E, <- app_assoc. reflexivity.
        + rewrite app_length; cbn [length]. eapply aprt_ext; [exact Hc2|cbn; intros; lia|].
          intros k _ Hk. unfold afupd. destruct (Nat.eqb_spec k (off i + length l1)) as [->|]; [|reflexivity].
          rewrite cl_nth by lia. rewrite E, app_nth2, Nat.sub_diag by lia. reflexivity.
        + rewrite app_length; cbn [length]. eapply aprt_ext; [exact Hv2|cbn; intros; lia|].
          intros k _ Hk. unfold afupd. bsplit; reflexivity. }
    specialize (Hgen (f i) [] col coeff eq_refl). cbn [length] in Hgen.
    rewrite Nat.add_0_r in Hgen.
    eapply rok_conseq; [apply Hgen; assumption|].
    intros [[j' col'] coeff'] [-> [Hc' Hv']]. cbn.
    split; [reflexivity|]. split; [|split; assumption].
    eapply aval_ext; [exact Hrow'|]. intros k Hk. unfold afupd. bsplit; subst; reflexivity. }
  cbn [plus]. intros [[[j row] col] coeff] [-> [H1 [H2 H3]]].
  apply rok_bind, rok_assert; [apply Nat.eqb_refl|].
  apply rok_bind. eapply rok_aset; [exact H1|lia|]. intros row' Hrow'.
  apply aprt_aval in H2; [|auto]. apply aprt_aval in H3; [|auto].
  set (cs := fun k => nth k cl 0) in *.
  assert (Hst : forall i j, i < rows -> stored off cs i j <-> In (i, j) (f i)).
  { intros i j Hi. split.
    - intros [k [Hk E]]. cbn [off] in Hk. unfold cs in E.
      replace k with (off i + (k - off i)) in E by lia. rewrite cl_nth in E by lia.
      assert (Hin : In (nth (k - off i) (f i) (0, 0)) (f i)) by (apply nth_In; lia).
      destruct (Hrow i _ Hi Hin) as [Hf _].
      rewrite (surjective_pairing (nth (k - off i) (f i) (0, 0))), Hf, E in Hin. exact Hin.
    - intros Hin. apply (In_nth _ _ (0, 0)) in Hin as [t [Ht E]].
      exists (off i + t). split; [cbn [off]; lia|]. unfold cs. rewrite cl_nth by assumption.
      rewrite E. reflexivity. }
  assert (Hw : swf (SMat rows cols (off rows) row' col coeff) off cs (fun _ => f0)).
  { constructor; cbn [srow scol scoeff srows scols snz]; auto.
    - eapply aval_ext; [exact Hrow'|]. intros k Hk. unfold afupd. bsplit; subst; reflexivity.
    - intros i Hi. cbn [off]. lia.
    - intros k Hk.
      assert (Hex : forall n, n <= rows -> k < off n -> exists i, i < n /\ off i <= k < off (S i)).
      { induction n as [|n IH]; intros Hn Hk'; [cbn in Hk'; lia|].
        destruct (Nat.lt_ge_cases k (off n)) as [Hl|Hl].
        - destruct (IH ltac:(lia) Hl) as [i [Hi Hki]]. exists i. split; [lia|exact Hki].
        - exists n. split; [lia|]. split; assumption. }
      destruct (Hex rows (le_n _) Hk) as [i [Hi Hki]].
      assert (Hin : In (i, cs k) (f i)) by (apply Hst; [exact Hi|]; exists k; auto).
      destruct (Hrow i _ Hi Hin) as [_ Hlt]. exact Hlt. }
  assert (Hn : snodup rows off cs).
  { intros i k l Hi Hk Hl E. cbn [off] in Hk, Hl. unfold cs in E.
    replace k with (off i + (k - off i)) in E by lia.
    replace l with (off i + (l - off i)) in E by lia.
    rewrite !cl_nth in E by lia.
    assert (Hk1 : In (nth (k - off i) (f i) (0, 0)) (f i)) by (apply nth_In; lia).
    assert (Hl1 : In (nth (l - off i) (f i) (0, 0)) (f i)) by (apply nth_In; lia).
    apply (Hrow i) in Hk1 as [Hk1 _]; [|exact Hi]. apply (Hrow i) in Hl1 as [Hl1 _]; [|exact Hi].
    assert (Ee : nth (k - off i) (f i) (0, 0) = nth (l - off i) (f i) (0, 0)).
    { rewrite (surjective_pairing (nth (k - off i) (f i) (0, 0))).
      rewrite (surjective_pairing (nth (l - off i) (f i) (0, 0))). congruence. }
    pose proof (proj1 (NoDup_nth (f i) (0, 0)) (Hnd i Hi) (k - off i) (l - off i) ltac:(lia) ltac:(lia) Ee).
    lia. }
  eapply rok_sort_sparsematrix; [exact Hw|].
  cbn [srows scols snz srow]. intros a' cs' vs' E1 E2 E3 E4 Hw' Hd' Hst' Hnd' Hdg'.
  apply (HQ a' cs' E1 E2).
  - (* the coefficients are all zero *)
    assert (Hvs : forall k, k < off rows -> vs' k = f0).
    { intros k Hk.
      assert (Hex : forall n, n <= rows -> k < off n -> exists i, i < n /\ off i <= k < off (S i)).
      { induction n as [|n IH]; intros Hn' Hk'; [cbn in Hk'; lia|].
        destruct (Nat.lt_ge_cases k (off n)) as [Hl|Hl].
        - destruct (IH ltac:(lia) Hl) as [i [Hi Hki]]. exists i. split; [lia|exact Hki].
        - exists n. split; [lia|]. split; assumption. }
      destruct (Hex rows (le_n _) Hk) as [i [Hi Hki]].
      rewrite <- (sden_stored rows off cs' vs' i k (Hnd' Hn) Hi Hki).
      rewrite Hd' by exact Hi. unfold sden. apply (sum_0 L). intros. bsplit; reflexivity. }
    destruct Hw'. constructor; auto. eapply aval_ext; [exact sw_vs0|].
    rewrite E3. intros; apply Hvs; assumption.
  - auto.
  - intros i j Hi. rewrite Hst' by exact Hi. apply Hst. exact Hi.
  - intros i Hi Hs. apply Hdg'; [exact Hi|]. apply Hst'; assumption.
Qed.
End NewZero.

(** ** Products *)
Lemma wp_addeval_sparsematrix_avector R W alpha a x y rs cs vs f h m (Q : unit -> mem K -> Prop) :
  swf a rs cs vs -> vval m x f -> vval m y h -> srows a = vdim y -> scols a = vdim x ->
  disj (inv x) (inv y) -> rdok R W (inv x) -> wrok W (inv y) ->
  (forall m', vval m' y (fun i => h i + alpha * sum (scols a) (fun j => sden rs cs vs i j * f j))%F ->
     keeps (inv y) m m' -> Q tt m') ->
  wp R W (addeval_sparsematrix_avector alpha a x y) m Q.
Proof.
  intros H Hx Hy Hr Hc Hdis Hrx Hwy HQ. unfold addeval_sparsematrix_avector.
  wstep. wstep. rewrite Hr.
  eapply wp_vloop with (g := fun i : nat => (h i + alpha * sum (scols a) (fun j => sden rs cs vs i j * f j))%F);
    [exact Hy|lia| |].
  - intros i m1 Hi Hv Hk. assert (Hx1 : vval m1 x f) by (eapply vval_keeps; eauto).
    pose proof (sw_rs _ _ _ _ H) as Hrs. pose proof (sw_cs _ _ _ _ H) as Hcs.
    pose proof (sw_vs _ _ _ _ H) as Hvs.
    pose proof (sw_mono _ _ _ _ H i ltac:(lia)) as Hm.
    pose proof (rs_nz _ _ _ _ (S i) H ltac:(lia)) as Hnz.
    wget Hrs. wget Hrs. replace (i + 1) with (S i) by lia.
    apply wp_bind.
    eapply wp_fold with (g := fun k : nat => sum (k - rs i) (fun t => vs (rs i + t)%nat * f (cs (rs i + t)%nat))%F).
    + rewrite Nat.sub_diag. reflexivity.
    + intros j Hj. wget Hvs. wget Hcs.
      pose proof (sw_cols _ _ _ _ H j ltac:(lia)).
      wstep. cbn [wp]. split; [|reflexivity].
      replace (S j - rs i) with (S (j - rs i)) by lia. cbn.
      replace (rs i + (j - rs i)) with j by lia. reflexivity.
    + wstep. wstep. wrote_tac. f_equal. f_equal.
      replace (rs i + (rs (S i) - rs i) - rs i) with (rs (S i) - rs i) by lia.
      unfold sden.
      rewrite (sum_ext _ _ (fun j => sum (rs (S i) - rs i)
         (fun t => (if (cs (rs i + t) =? j)%nat then vs (rs i + t)%nat else f0) * f j)%F))
        by (intros; symmetry; apply (sum_mul_r L)).
      rewrite (sum_swap L). apply sum_ext. intros t Ht.
      rewrite (sum_single L _ (cs (rs i + t))).
      * cbv beta. rewrite Nat.eqb_refl. reflexivity.
      * apply (sw_cols _ _ _ _ H). lia.
      * intros j Hj Hne. destruct (Nat.eqb_spec (cs (rs i + t)) j); [congruence|ring].
  - intros m' Hv Hk. apply HQ; [|exact Hk]. eapply vval_ext; [exact Hv|].
    intros i Hi; cbv beta. bsplit; reflexivity.
Qed.

Lemma wp_addevaltrans_sparsematrix_avector R W alpha a x y rs cs vs f h m (Q : unit -> mem K -> Prop) :
  swf a rs cs vs -> vval m x f -> vval m y h -> srows a = vdim x -> scols a = vdim y ->
  disj (inv x) (inv y) -> rdok R W (inv x) -> wrok W (inv y) ->
  (forall m', vval m' y (fun j => h j + alpha * sum (srows a) (fun i => sden rs cs vs i j * f i))%F ->
     keeps (inv y) m m' -> Q tt m') ->
  wp R W (addevaltrans_sparsematrix_avector alpha a x y) m Q.
Proof.
  intros H Hx Hy Hr Hc Hdis Hrx Hwy HQ. unfold addevaltrans_sparsematrix_avector.
  wstep. wstep.
  apply (wp_for (fun i m1 => vval m1 y (fun j => h j + alpha * sum i (fun i => sden rs cs vs i j * f i))%F
            /\ keeps (inv y) m m1)).
  - split; [|apply keeps_refl]. eapply vval_ext; [exact Hy|]. intros; cbn. ring.
  - intros i m1 Hi [Hv Hk]. assert (Hx1 : vval m1 x f) by (eapply vval_keeps; eauto).
    pose proof (sw_rs _ _ _ _ H) as Hrs. pose proof (sw_cs _ _ _ _ H) as Hcs.
    pose proof (sw_vs _ _ _ _ H) as Hvs.
    pose proof (sw_mono _ _ _ _ H i ltac:(lia)) as Hm.
    pose proof (rs_nz _ _ _ _ (S i) H ltac:(lia)) as Hnz.
    wstep. wget Hrs. wget Hrs. replace (i + 1) with (S i) by lia.
    apply (wp_for (fun k m2 => vval m2 y (fun j => h j + alpha * sum i (fun i => sden rs cs vs i j * f i)
         + alpha * (sum (k - rs i) (fun t => if cs (rs i + t)%nat =? j then vs (rs i + t)%nat else f0) * f i))%F
         /\ keeps (inv y) m m2)).
    + split; [|exact Hk]. eapply vval_ext; [exact Hv|]. intros. rewrite Nat.sub_diag. cbn. ring.
    + intros k m2 Hk2 [Hv2 Hkk]. wget Hcs. wget Hvs.
      pose proof (sw_cols _ _ _ _ H k ltac:(lia)).
      wstep. wstep. split.
      * eapply vval_ext; [eapply vval_upd_same; [exact Hv2|lia]|].
        intros j Hj. unfold fupd. replace (S k - rs i) with (S (k - rs i)) by lia. cbn [sum].
        replace (rs i + (k - rs i)) with k by lia. rewrite (Nat.eqb_sym (cs k) j).
        destruct (Nat.eqb_spec j (cs k)) as [->|]; ring.
      * apply keeps_upd_r; [exact Hkk|]. apply inv_va. lia.
    + intros m2 [Hv2 Hk2]. split; [|exact Hk2]. eapply vval_ext; [exact Hv2|].
      intros j Hj. cbn [sum]. replace (rs i + (rs (S i) - rs i) - rs i) with (rs (S i) - rs i) by lia.
      unfold sden at 3. ring.
  - intros m1 [Hv Hk]. apply HQ; assumption.
Qed.

(** The dense matrix update, for an arbitrary placement of the entries. *)
Lemma wp_scatter R W alpha a b rs cs vs h m (p : nat -> nat -> nat * nat) (Q : unit -> mem K -> Prop) :
  swf a rs cs vs -> mwf b -> mval m b h -> wrok W (inm b) ->
  (forall i j, i < srows a -> j < scols a -> fst (p i j) < mrows b /\ snd (p i j) < mcols b) ->
  (forall i j i' j', p i j = p i' j' -> i = i' /\ j = j') ->
  (forall m', (forall G, (forall i j, i < srows a -> j < scols a ->
                 G (fst (p i j)) (snd (p i j)) = (h (fst (p i j)) (snd (p i j)) + alpha * sden rs cs vs i j)%F) ->
              (forall k l, k < mrows b -> l < mcols b ->
                 (forall i j, i < srows a -> j < scols a -> (k, l) <> p i j) -> G k l = h k l) ->
              (forall k l, k < mrows b -> l < mcols b ->
                 {ij | fst ij < srows a /\ snd ij < scols a /\ (k, l) = p (fst ij) (snd ij)}
                 + {forall i j, i < srows a -> j < scols a -> (k, l) <> p i j}) ->
              mval m' b G) -> keeps (inm b) m m' -> Q tt m') ->
  wp R W (for_ 0 (srows a) (fun i =>
        s <- lift (aget (srow a) i) ;;
        e <- lift (aget (srow a) (i + 1)) ;;
        for_ s (e - s) (fun k =>
          j <- lift (aget (scol a) k) ;;
          c <- lift (aget (scoeff a) k) ;;
          v <- mload b (fst (p i j)) (snd (p i j)) ;;
          mstore b (fst (p i j)) (snd (p i j)) (fadd v (fmul alpha c))))) m Q.
Proof.
  intros H Hwf Hb Hw Hin Hinj HQ.
  pose proof (sw_rs _ _ _ _ H) as Hrs. pose proof (sw_cs _ _ _ _ H) as Hcs.
  pose proof (sw_vs _ _ _ _ H) as Hvs.
  (* contents after processing the entries below index [q] of row [i] *)
  set (upto := fun (r q : nat) m1 => exists G, mval m1 b G /\ keeps (inm b) m m1 /\
     (forall i j, i < srows a -> j < scols a -> G (fst (p i j)) (snd (p i j)) =
        (h (fst (p i j)) (snd (p i j)) + alpha *
           (if (i <? r)%nat then sden rs cs vs i j
            else if (i =? r)%nat then sum (q - rs r) (fun t => if cs (rs r + t)%nat =? j then vs (rs r + t)%nat else f0)
            else f0))%F) /\
     (forall k l, k < mrows b -> l < mcols b ->
        (forall i j, i < srows a -> j < scols a -> (k, l) <> p i j) -> G k l = h k l)).
  apply (wp_for (fun i m1 => upto i (rs i) m1)).
  - exists h. split; [exact Hb|]. split; [apply keeps_refl|]. split; [|auto].
    intros i j Hi Hj. rewrite Nat.sub_diag. cbn [sum]. bsplit; ring.
  - intros i m1 Hi Hup.
    pose proof (sw_mono _ _ _ _ H i ltac:(lia)) as Hm.
    pose proof (rs_nz _ _ _ _ (S i) H ltac:(lia)) as Hnz.
    wget Hrs. wget Hrs. replace (i + 1) with (S i) by lia.
    apply (wp_for (fun k m2 => upto i k m2)); [exact Hup| |].
    + intros k m2 Hk [G [HG [Hkp [HG1 HG2]]]]. wget Hcs. wget Hvs.
      pose proof (sw_cols _ _ _ _ H k ltac:(lia)) as Hck.
      destruct (Hin i (cs k) ltac:(lia) Hck) as [Hp1 Hp2].
      wstep. wstep.
      exists (fupd2 G (fst (p i (cs k))) (snd (p i (cs k)))
                (G (fst (p i (cs k))) (snd (p i (cs k))) + alpha * vs k)%F).
      split; [apply mval_upd_same; assumption|].
      split; [apply keeps_upd_r; [exact Hkp|apply inm_ma; assumption]|]. split.
      * intros i' j' Hi' Hj'. unfold fupd2.
        destruct (Nat.eqb_spec (fst (p i' j')) (fst (p i (cs k)))) as [E1|E1];
        destruct (Nat.eqb_spec (snd (p i' j')) (snd (p i (cs k)))) as [E2|E2]; cbn [andb].
        -- assert (E : p i' j' = p i (cs k)) by (destruct (p i' j'), (p i (cs k)); cbn in *; congruence).
           apply Hinj in E as [-> ->]. rewrite HG1 by (auto; lia). bsplit.
           replace (S k - rs i) with (S (k - rs i)) by lia. cbn [sum].
           replace (rs i + (k - rs i)) with k by lia. rewrite Nat.eqb_refl. ring.
        -- rewrite HG1 by assumption. bsplit; try reflexivity. subst i'.
           replace (S k - rs i) with (S (k - rs i)) by lia. cbn [sum].
           replace (rs i + (k - rs i)) with k by lia.
           destruct (Nat.eqb_spec (cs k) j'); [subst; congruence|ring].
        -- rewrite HG1 by assumption. bsplit; try reflexivity. subst i'.
           replace (S k - rs i) with (S (k - rs i)) by lia. cbn [sum].
           replace (rs i + (k - rs i)) with k by lia.
           destruct (Nat.eqb_spec (cs k) j'); [subst; congruence|ring].
        -- rewrite HG1 by assumption. bsplit; try reflexivity. subst i'.
           replace (S k - rs i) with (S (k - rs i)) by lia. cbn [sum].
           replace (rs i + (k - rs i)) with k by lia.
           destruct (Nat.eqb_spec (cs k) j'); [subst; congruence|ring].
      * intros k' l' Hk' Hl' Hnot. unfold fupd2.
        destruct (Nat.eqb_spec k' (fst (p i (cs k)))) as [E1|E1];
        destruct (Nat.eqb_spec l' (snd (p i (cs k)))) as [E2|E2]; cbn [andb]; auto.
        exfalso. apply (Hnot i (cs k)); [lia|exact Hck|]. subst. destruct (p i (cs k)); reflexivity.
    + intros m2 [G [HG [Hkp [HG1 HG2]]]]. exists G. split; [exact HG|]. split; [exact Hkp|].
      split; [|exact HG2]. intros i' j' Hi' Hj'. rewrite HG1 by assumption.
      rewrite Nat.sub_diag. cbn [sum].
      replace (rs i + (rs (S i) - rs i) - rs i) with (rs (S i) - rs i) by lia.
      bsplit; try reflexivity. subst. unfold sden. reflexivity.
  - cbn [plus]. intros m1 [G [HG [Hkp [HG1 HG2]]]]. apply HQ; [|exact Hkp].
    intros G' HG'1 HG'2 Hdec. eapply mval_ext; [exact HG|]. intros k l Hk Hl.
    destruct (Hdec k l Hk Hl) as [[[i j] [Hi [Hj E]]]|Hn]; cbn [fst snd] in *.
    + pose proof (HG1 i j Hi Hj) as E1. pose proof (HG'1 i j Hi Hj) as E2.
      rewrite <- E in E1, E2. cbn [fst snd] in E1, E2. rewrite E1, E2. bsplit; reflexivity.
    + rewrite HG2, HG'2; auto.
Qed.

Lemma wp_add_sparsematrix_amatrix R W alpha (t : bool) a b rs cs vs h m (Q : unit -> mem K -> Prop) :
  swf a rs cs vs -> mwf b -> mval m b h -> wrok W (inm b) ->
  mrows b = (if t then scols a else srows a) -> mcols b = (if t then srows a else scols a) ->
  (forall m', mval m' b (fun i j => h i j + alpha *
       (if t then sden rs cs vs j i else sden rs cs vs i j))%F -> keeps (inm b) m m' -> Q tt m') ->
  wp R W (add_sparsematrix_amatrix alpha t a b) m Q.
Proof.
  intros H Hwf Hb Hw Hr Hc HQ. unfold add_sparsematrix_amatrix.
  destruct (Nat.ltb_spec 0 (snz a)) as [Hnz|Hz].
  - destruct t.
    + wstep. wstep.
      eapply (wp_scatter) with (p := fun i j => (j, i)); eauto.
      * cbn. intros; lia.
      * intros i j i' j' [= -> ->]. auto.
      * intros m' Hm' Hk. apply HQ; [|exact Hk]. apply Hm'; cbn.
        -- reflexivity.
        -- intros k l Hk' Hl Hn. exfalso. apply (Hn l k); [lia|lia|reflexivity].
        -- intros k l Hk' Hl. left. exists (l, k). cbn. repeat split; lia.
    + wstep. wstep.
      eapply (wp_scatter) with (p := fun i j => (i, j)); eauto.
      * cbn. intros; lia.
      * intros i j i' j' [= -> ->]. auto.
      * intros m' Hm' Hk. apply HQ; [|exact Hk]. apply Hm'; cbn.
        -- reflexivity.
        -- intros k l Hk' Hl Hn. exfalso. apply (Hn k l); [lia|lia|reflexivity].
        -- intros k l Hk' Hl. left. exists (k, l). cbn. repeat split; lia.
  - cbn. apply HQ; [|apply keeps_refl]. eapply mval_ext; [exact Hb|].
    assert (Hz' : forall i j, i < srows a -> sden rs cs vs i j = f0).
    { intros i j Hi. unfold sden.
      pose proof (rs_nz _ _ _ _ (S i) H ltac:(lia)). replace (rs (S i) - rs i) with 0 by lia. reflexivity. }
    intros i j Hi Hj. destruct t; rewrite Hz' by lia; ring.
Qed.
End SparseP.
