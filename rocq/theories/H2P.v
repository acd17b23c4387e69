(** * Products of H2-matrices and vectors: parts of bases, multiplication of coefficient vectors *)
From Coq Require Import Arith Lia List Bool Ring.
From Verif Require Import Fld Ord Prog Arr View Loop Spec Cluster Block Avector AvectorP Amatrix AmatrixP Hmatrix HmSpec HmP
  Clusterbasis CbSpec CbP CbP2 CbP3 H2matrix H2Spec.
Import ListNotations.

Section H2Ind.
Context {G : ofops} (P : h2matrix G -> Prop).
Variable step : forall h, (forall l s, h2_son h = Some l -> In s l -> P s) -> P h.
Fixpoint h2_rect' (h : h2matrix G) : P h.
Proof.
  apply step. destruct h as [rb cb u f [l|] rs cs ds]; cbn; [|discriminate].
  intros l' s E. injection E as <-. revert s. induction l as [|a l IH]; intros s [].
  - rewrite <- H. apply h2_rect'.
  - apply IH, H.
Defined.
End H2Ind.

Section H2P.
Context {K : fops} {G : ofops} (L : ring_laws K).
Add Ring KringH2 : (rl_ring K L).
Implicit Types (m : mem K) (R W : addr -> Prop) (h : h2matrix G) (cb rb : cbasis G) (M : cbasis G -> nat -> nat -> K)
  (D : nat -> nat -> K) (X Y : nat -> K).

(** Row and position of the coefficients of part [i]; value of the offset in the loops. *)
Definition prow (cb : cbasis G) (i : nat) : nat := match cb_son cb with [] => i * cb_size cb | _ => nsum i (at_ cb_size (cb_son cb)) end.
Definition pcol (cb : cbasis G) (i : nat) : nat := match cb_son cb with [] => 0 | _ => cb_k cb + nsum i (at_ cb_ktree (cb_son cb)) end.
Definition noff (cb : cbasis G) (i : nat) : nat :=
  match cb_son cb with [] => cb_k cb + i * cb_size cb | _ => cb_k cb + nsum i (at_ cb_ktree (cb_son cb)) end.

Lemma noff_0 cb : noff cb 0 = cb_k cb.
Proof. unfold noff. destruct (cb_son cb); cbn [nsum]; lia. Qed.
Lemma noff_end cb n i (s : cbasis G) : cbok cb -> part_of cb n i s -> noff cb n = cb_ktree cb.
Proof.
  intros Hok [(E & -> & _)|(-> & Hs)]; unfold noff; rewrite (cbok_ktree cb Hok); unfold cb_leaf.
  - rewrite E. lia.
  - destruct (nth_in _ _ _ Hs) as [Hi Hin]. destruct (cb_son cb) eqn:E; [contradiction|]. reflexivity.
Qed.
Lemma part_ok cb n i (s : cbasis G) : cbok cb -> part_of cb n i s -> cbok s.
Proof. intros Hok [(_ & _ & ->)|(_ & Hs)]; [exact Hok|]. apply (cbok_son cb s Hok (proj2 (nth_in _ _ _ Hs))). Qed.
Lemma part_split cb n i (s : cbasis G) : part_of cb n i s -> (n =? 1) || (0 <? length (cb_son cb)) = true.
Proof.
  intros [(_ & -> & _)|(_ & Hs)]; [reflexivity|]. apply orb_true_iff. right. apply Nat.ltb_lt. pose proof (proj1 (nth_in _ _ _ Hs)). lia.
Qed.
Lemma part_room cb n i (s : cbasis G) : cbok cb -> i < n -> part_of cb n i s -> pcol cb i + cb_ktree s <= cb_ktree cb.
Proof.
  intros Hok Hi [(E & -> & ->)|(-> & Hs)]; unfold pcol; [rewrite E; lia|].
  destruct (nth_in _ _ _ Hs) as [_ Hin]. rewrite (cbok_ktree_node cb Hok) by (intros E; rewrite E in Hin; destruct Hin).
  pose proof (nsum_in (at_ cb_ktree (cb_son cb)) i _ Hi) as B. rewrite (at_nth _ _ _ _ Hs) in B. destruct (cb_son cb); [destruct Hin|]. lia.
Qed.
Lemma part_prow cb n (hs : nat -> nat) : (forall i, i < n -> exists s, part_of cb n i s /\ cb_size s = hs i) ->
  forall i, i <= n -> nsum i hs = prow cb i.
Proof.
  intros H i Hi. unfold prow. destruct (cb_son cb) as [|s0 l0] eqn:E.
  - induction i as [|i IH]; [reflexivity|]. cbn [nsum]. rewrite IH by lia. destruct (H i ltac:(lia)) as (s & Hs & <-).
    destruct Hs as [(_ & -> & ->)|(-> & Hs)]; [lia|]. rewrite E in Hs. destruct i; discriminate Hs.
  - rewrite <- E. apply nsum_ext. intros j Hj. destruct (H j ltac:(lia)) as (s & Hs & <-).
    destruct Hs as [(E' & _)|(_ & Hs)]; [congruence|]. rewrite (at_nth _ _ _ _ Hs). reflexivity.
Qed.

Lemma wp_h2_part R W cb n i (s : cbasis G) (xt : vec) m (Q : vec -> mem K -> Prop) :
  cbok cb -> i < n -> part_of cb n i s -> vdim xt = cb_ktree cb -> Q (subv xt (pcol cb i) (cb_ktree s)) m ->
  wp R W (h2_part cb i (noff cb i) xt) m Q.
Proof.
  intros Hok Hi Hp Ex HQ. pose proof (part_room cb n i s Hok Hi Hp) as Hr. unfold h2_part, pcol, noff in *.
  destruct Hp as [(E & -> & ->)|(-> & Hs)].
  - rewrite E in *. apply wp_init_sub_avector; [lia|exact HQ].
  - destruct (nth_in _ _ _ Hs) as [_ Hin]. destruct (cb_son cb) eqn:E; [destruct Hin|]. rewrite (sget_some _ _ _ Hs). cbn [bind].
    apply wp_init_sub_avector; [lia|exact HQ].
Qed.
Lemma h2_next_eq cb n i (s : cbasis G) : i < n -> part_of cb n i s -> h2_next (K := K) cb i (noff cb i) = Ret (noff cb (S i)).
Proof.
  intros Hi [(E & -> & ->)|(-> & Hs)]; unfold h2_next, noff.
  - rewrite E. f_equal. lia.
  - destruct (nth_in _ _ _ Hs) as [_ Hin]. destruct (cb_son cb) eqn:E; [destruct Hin|]. rewrite (sget_some _ _ _ Hs). cbn [bind nsum].
    rewrite (at_nth cb_ktree _ _ _ Hs). f_equal. lia.
Qed.

(** The parts of transformed vectors. *)
Lemma fwd_part_of M cb n i (s : cbasis G) X Xt : i < n -> part_of cb n i s -> fwd_of M cb X Xt ->
  fwd_of M s (shiftv X (prow cb i)) (shiftv Xt (pcol cb i)).
Proof.
  intros Hi Hp H. unfold prow, pcol. destruct Hp as [(E & -> & ->)|(-> & Hs)].
  - rewrite E. replace i with 0 by lia. exact H.
  - destruct (nth_in _ _ _ Hs) as [_ Hin]. destruct (cb_son cb) as [|a l] eqn:E; [destruct Hin|]. rewrite <- E in *.
    intros o r c Hc. destruct (H _ _ _ (nodes_son cb i s o r c Hs Hc)) as [A1 A2]. unfold shiftv. split.
    + intros q Hq. rewrite !Nat.add_assoc. rewrite A1 by exact Hq. apply sum_ext. intros p _. rewrite !Nat.add_assoc. reflexivity.
    + intros Hl p Hq. rewrite !Nat.add_assoc. apply A2; assumption.
Qed.
Lemma bwd_part_of M cb n i (s : cbasis G) Y Y' (d : nat -> K) : cbok cb -> i < n -> part_of cb n i s ->
  (forall o, o < cb_ktree cb -> o < pcol cb i \/ pcol cb i + cb_ktree s <= o -> Y' o = Y o) ->
  (forall p, p < cb_size s -> bwd_of M s (shiftv Y' (pcol cb i)) p = (bwd_of M s (shiftv Y (pcol cb i)) p + d p)%F) ->
  forall p, p < cb_size cb -> bwd_of M cb Y' p =
    if (prow cb i <=? p) && (p <? prow cb i + cb_size s) then (bwd_of M cb Y p + d (p - prow cb i)%nat)%F else bwd_of M cb Y p.
Proof.
  intros Hok Hi Hp E1 E2 p Hp'. unfold prow, pcol in *. destruct Hp as [(E & -> & ->)|(-> & Hs)].
  - rewrite E in *. replace i with 0 in * by lia. cbn [Nat.mul Nat.add Nat.leb andb] in *. apply Nat.ltb_lt in Hp' as Hp''. rewrite Hp''.
    rewrite Nat.sub_0_r. exact (E2 p Hp').
  - destruct (nth_in _ _ _ Hs) as [_ Hin]. destruct (cb_son cb) as [|a l] eqn:E; [destruct Hin|]. rewrite <- E in *.
    assert (Hne : cb_son cb <> []) by congruence. pose proof Hp' as Hp0. rewrite (cbok_size cb Hok Hne) in Hp0.
    apply nsum_pos in Hp0 as (j & p' & Hj & Hpj & ->). destruct (nth_ex _ j Hj) as [t Ht]. rewrite (at_nth _ _ _ _ Ht) in Hpj.
    pose proof (nsum_in (at_ cb_size (cb_son cb)) i _ Hi) as Bi. rewrite (at_nth _ _ _ _ Hs) in Bi.
    assert (Etop : forall o, o < cb_k cb -> Y' o = Y o).
    { intros o Ho. apply E1; [pose proof (cbok_k_ktree cb Hok); lia|]. left. lia. }
    rewrite !(bwd_node L M cb _ j t p' Hok Ht Hpj).
    destruct (Nat.eq_dec j i) as [->|Hji].
    + assert (t = s) by congruence. subst t.
      destruct (Nat.leb_spec (nsum i (at_ cb_size (cb_son cb))) (nsum i (at_ cb_size (cb_son cb)) + p')); [|lia].
      destruct (Nat.ltb_spec (nsum i (at_ cb_size (cb_son cb)) + p') (nsum i (at_ cb_size (cb_son cb)) + cb_size s)); [|lia]. cbn [andb].
      rewrite E2 by exact Hpj. replace (nsum i (at_ cb_size (cb_son cb)) + p' - nsum i (at_ cb_size (cb_son cb))) with p' by lia.
      rewrite (sum_ext _ (fun q => M cb (nsum i (at_ cb_size (cb_son cb)) + p')%nat q * Y' q)%F (fun q => M cb (nsum i (at_ cb_size (cb_son cb)) + p')%nat q * Y q)%F) by (intros q Hq; rewrite Etop by exact Hq; reflexivity).
      ring.
    + match goal with |- _ = (if ?b then _ else _) => assert (Eb : b = false) end.
      { destruct (Nat.leb_spec (nsum i (at_ cb_size (cb_son cb))) (nsum j (at_ cb_size (cb_son cb)) + p')); [|reflexivity].
        destruct (Nat.ltb_spec (nsum j (at_ cb_size (cb_son cb)) + p') (nsum i (at_ cb_size (cb_son cb)) + cb_size s)); [|reflexivity].
        exfalso. apply (nsum_sep (at_ cb_size (cb_son cb)) j i p' Hji); [rewrite (at_nth _ _ _ _ Ht); exact Hpj|]. rewrite (at_nth _ _ _ _ Hs). lia. }
      rewrite Eb. f_equal.
      * apply sum_ext. intros q Hq. rewrite Etop by exact Hq. reflexivity.
      * apply bwd_ext; [apply (cbok_son cb t Hok (proj2 (nth_in _ _ _ Ht)))|exact Hpj|reflexivity|]. intros q Hq. unfold shiftv.
        pose proof (nsum_in (at_ cb_ktree (cb_son cb)) j _ Hj) as Bj. rewrite (at_nth _ _ _ _ Ht) in Bj.
        pose proof (cbok_ktree_node cb Hok Hne) as Ek.
        apply E1; [lia|].
        destruct (Nat.lt_ge_cases j i) as [Hlt|Hge].
        -- left. pose proof (nsum_le (at_ cb_ktree (cb_son cb)) (S j) i ltac:(lia)) as Bl. cbn [nsum] in Bl. rewrite (at_nth cb_ktree _ _ _ Ht) in Bl. lia.
        -- right. pose proof (nsum_le (at_ cb_ktree (cb_son cb)) (S i) j ltac:(lia)) as Bl. cbn [nsum] in Bl. rewrite (at_nth cb_ktree _ _ _ Hs) in Bl. lia.
Qed.

Lemma h2rep_keeps (W : addr -> Prop) M m m' h D : h2rep M m h D -> keeps W m m' -> disj (inh2 h) W -> h2rep M m' h D.
Proof.
  intros H Hk. induction H as [rb cb A Su ds D H1 H2 H3 H4|rb cb F ds D H1 H2 H3|rb cb ds D H1|rb cb l rsons csons ds hs ws D P1 P2 P3 P4 P5 P6 P7 IH];
    intros Hd.
  - eapply h2rep_u; eauto. eapply mval_keeps; eauto. intros a Ha. apply Hd. eapply inh2_u; [reflexivity|exact Ha].
  - eapply h2rep_f; eauto. eapply mval_keeps; eauto. intros a Ha. apply Hd. eapply inh2_f; [reflexivity|exact Ha].
  - apply h2rep_zero. exact H1.
  - eapply h2rep_super; eauto. intros i j s Hi Hj Hs. apply (IH i j s Hi Hj Hs). intros a Ha. apply Hd.
    eapply inh2_son; [reflexivity|eapply nth_error_In; exact Hs|exact Ha].
Qed.
Lemma h2rep_ext M M' m h : forall D D', h2rep M m h D -> (forall c p q, M' c p q = M c p q) ->
  (forall i j, i < h2rows h -> j < h2cols h -> D' i j = D i j) -> h2rep M' m h D'.
Proof.
  intros D D' H EM. revert D'. induction H as [rb cb A Su ds D H1 H2 H3 H4|rb cb F ds D H1 H2 H3|rb cb ds D H1|rb cb l rsons csons ds hs ws D P1 P2 P3 P4 P5 P6 P7 IH];
    intros D' E.
  - eapply h2rep_u; eauto. intros p q Hp Hq. rewrite E by assumption. rewrite H4 by assumption. unfold vsw.
    apply sum_ext. intros r _. apply sum_ext. intros c _. rewrite !EM. reflexivity.
  - eapply h2rep_f; eauto. eapply mval_ext; [exact H3|]. intros i j Hi Hj. symmetry. apply E; unfold h2rows, h2cols; cbn; lia.
  - apply h2rep_zero. intros p q Hp Hq. rewrite E by assumption. apply H1; assumption.
  - eapply h2rep_super; eauto. intros i j s Hi Hj Hs. destruct (P6 i j s Hi Hj Hs) as [E1 E2].
    apply (IH i j s Hi Hj Hs). intros p q Hp Hq. rewrite E1 in Hp. rewrite E2 in Hq.
    pose proof (nsum_in hs i rsons Hi). pose proof (nsum_in ws j csons Hj). apply E; unfold h2rows, h2cols; cbn; lia.
Qed.

(** V_t S W_s^* x from the coefficients of x. *)
Lemma vsw_mvec M rb cb Su D X Xt p : p < cb_size rb -> fwd_of M cb X Xt ->
  (forall p q, p < cb_size rb -> q < cb_size cb -> D p q = vsw M rb cb Su p q) ->
  mvec (cb_size cb) D X p = sum (cb_k rb) (fun r => M rb p r * sum (cb_k cb) (fun c => Su r c * Xt c))%F.
Proof.
  intros Hp HF HD. unfold mvec.
  rewrite (sum_ext _ _ (fun q => sum (cb_k rb) (fun r => sum (cb_k cb) (fun c => M rb p r * Su r c * fconj (M cb q c) * X q)))%F).
  2:{ intros q Hq. rewrite (HD p q Hp Hq). unfold vsw. rewrite <- (sum_mul_r L). apply sum_ext. intros r _. rewrite <- (sum_mul_r L). reflexivity. }
  rewrite (sum_swap L). apply sum_ext. intros r _. rewrite (sum_swap L). rewrite <- (sum_mul_l L). apply sum_ext. intros c Hc.
  rewrite (fwd_of_self M cb X Xt HF c Hc). unfold fwdc. rewrite <- !(sum_mul_l L). apply sum_ext. intros q _. ring.
Qed.
Lemma vsw_mvec_trans M rb cb Su D X Xt q : q < cb_size cb -> fwd_of M rb X Xt ->
  (forall p q, p < cb_size rb -> q < cb_size cb -> D p q = vsw M rb cb Su p q) ->
  mvec (cb_size rb) (tr true D) X q = sum (cb_k cb) (fun c => M cb q c * sum (cb_k rb) (fun r => tr true Su c r * Xt r))%F.
Proof.
  intros Hq HF HD. unfold mvec.
  rewrite (sum_ext _ _ (fun p => sum (cb_k rb) (fun r => sum (cb_k cb) (fun c => fconj (M rb p r) * fconj (Su r c) * M cb q c * X p)))%F).
  2:{ intros p Hp. unfold tr. rewrite (HD p q Hp Hq). unfold vsw. rewrite (sum_conj L), <- (sum_mul_r L). apply sum_ext. intros r _.
      rewrite (sum_conj L), <- (sum_mul_r L). apply sum_ext. intros c _. rewrite !(rl_conj_mul K L), (rl_conj_conj K L). reflexivity. }
  rewrite (sum_swap L). rewrite (sum_ext _ _ (fun r => sum (cb_k cb) (fun c => sum (cb_size rb) (fun p => fconj (M rb p r) * fconj (Su r c) * M cb q c * X p)))%F) by (intros r _; apply (sum_swap L)).
  rewrite (sum_swap L). apply sum_ext. intros c _. rewrite <- (sum_mul_l L). apply sum_ext. intros r Hr. unfold tr.
  rewrite (fwd_of_self M rb X Xt HF r Hr). unfold fwdc. rewrite <- !(sum_mul_l L). apply sum_ext. intros p _. ring.
Qed.
End H2P.
