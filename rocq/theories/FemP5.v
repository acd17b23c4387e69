(** * Finite elements: prolongation, boundary values and the maximum norm *)
From Coq Require Import Arith Lia List Bool Ring.
From Verif Require Import Fld Ord Prog Arr HmSpec Sparse SparseP PropSparse Tri2d Tri2dSpec Tri2dP Tri2dP3 Fem FemSpec FemP FemP2 FemP3.
Import ListNotations.
Local Open Scope nat_scope.

(** ** Prolongation *)
Section Prolong.
  Context {K : ofops} (L : ring_laws K).
  Add Ring Kring_fem6 : (rl_ring K L).
  Context (df dcr : tri2dp1 K) (wf w : mview K) (nf nc : nat -> nat)
    (Hf : space_is df wf nf) (Hc : space_is dcr w nc) (Hok : mesh_ok w) (Href : refined w wf)
    (rf : tri2dref) (Hrf : describes rf w).

  Definition one (ii v : nat) (x : K) : list (nat * nat * K) := if isfree w v then [(ii, nc v, x)] else [].
  Definition plist (i : nat) : list (nat * nat * K) :=
    if isfree wf i then
      if i <? mV w then one (nf i) i f1
      else one (nf i) (fst (me w (i - mV w))) (half K) ++ one (nf i) (snd (me w (i - mV w))) (half K)
    else [].

  Lemma when_one {S} (add : nat * nat * K -> S -> res S) ii v x s : v < mV w ->
    when_dof dcr true v (fun jj s => add (ii, jj, x) s) s = rfold add (one ii v x) s.
  Proof.
    intros Hv. rewrite (when_list dcr w nc Hc add (fun jj => [(ii, jj, x)])).
    - unfold one. destruct (isfree w v); reflexivity.
    - exact Hv.
    - intros _. cbn [rfold]. destruct (add _ s); reflexivity.
  Qed.

  Lemma prolong_list {S} (add : nat * nat * K -> S -> res S) (s : S) :
    prolong_with df dcr rf (fun ii jj x s => add (ii, jj, x) s) (Some s) =
    (let* s := rfold add (concat (map plist (seq 0 (mV wf)))) s in Ok (Some s)).
  Proof.
    pose proof Hf as ((EV & _) & Fd & Fi & _). pose proof Hc as ((_ & _ & _ & _ & Ae & _) & _).
    destruct Href as (EVF & _). destruct Hrf as (xf & xt & ef & et & tf & Axf & Axt & _ & _ & _ & D0 & D1 & _).
    destruct Hok as (He & _).
    unfold prolong_with. rewrite EV. rewrite EVF.
    assert (G : forall n lo s, lo + n <= mV w + mE w ->
      rfor lo n (fun i s =>
      match s with
      | None => Ok None
      | Some s =>
        let* d := aget (p1_dof df) i in
        if (d : bool) then
          let* ii := aget (p1_idx df) i in
          let* xt := aget (r2_xt rf) i in
          match xt with
          | 0 =>
            let* j := aget (r2_xf rf) i in
            let* s := when_dof dcr true j (fun jj s => add (ii, jj, f1) s) s in
            Ok (Some s)
          | 1 =>
            let* k := aget (r2_xf rf) i in
            let* e := aget (t2_e (p1_t2 dcr)) k in
            let* s := when_dof dcr true (fst e) (fun jj s => add (ii, jj, half K) s) s in
            let* s := when_dof dcr true (snd e) (fun jj s => add (ii, jj, half K) s) s in
            Ok (Some s)
          | _ => Ok None
          end
        else Ok (Some s)
      end) (Some s) = (let* s := rfold add (concat (map plist (seq lo n))) s in Ok (Some s))).
    { induction n as [|n IH]; intros lo s0 Hn; [reflexivity|]. cbn [rfor seq map concat].
      rewrite rfold_app.
      rewrite (aval_get _ _ _ _ Fd) by lia. cbn [rbind]. unfold plist at 1. fold (isfree wf lo).
      destruct (isfree wf lo) eqn:E; [|cbn [rfold rbind]; apply IH; lia].
      rewrite (aval_get _ _ _ _ Fi) by lia. cbn [rbind].
      rewrite (aval_get _ _ _ _ Axt) by lia. cbn [rbind].
      destruct (Nat.ltb_spec lo (mV w)) as [Hlt|Hge].
      - destruct (D0 lo Hlt) as [Q1 Q2]. rewrite Q1. rewrite (aval_get _ _ _ _ Axf) by lia. cbn [rbind]. rewrite Q2.
        rewrite (when_one add _ _ _ _ Hlt). destruct (rfold add (one (nf lo) lo f1) s0) as [s1|]; cbn [rbind]; [|reflexivity].
        apply IH. lia.
      - set (k := lo - mV w). assert (Hk : k < mE w) by lia. destruct (D1 k Hk) as [Q1 Q2].
        replace (mV w + k) with lo in Q1, Q2 by lia. rewrite Q1. rewrite (aval_get _ _ _ _ Axf) by lia. cbn [rbind].
        rewrite Q2. rewrite (aval_get _ _ _ _ Ae) by lia. cbn [rbind]. destruct (He k Hk) as (B1 & B2 & _).
        rewrite (when_one add _ _ _ _ B1). rewrite rfold_app.
        destruct (rfold add (one (nf lo) (fst (me w k)) (half K)) s0) as [s1|]; cbn [rbind]; [|reflexivity].
        rewrite (when_one add _ _ _ _ B2).
        destruct (rfold add (one (nf lo) (snd (me w k)) (half K)) s1) as [s2|]; cbn [rbind]; [|reflexivity].
        apply IH. lia. }
    apply G. lia.
  Qed.

  Definition pl : list (nat * nat * K) := concat (map plist (seq 0 (mV wf))).

  (** The hat function of [j] does not vanish in the fine vertex [i]. *)
  Definition meets (i j : nat) : Prop :=
    (i < mV w /\ i = j) \/ (mV w <= i /\ (fst (me w (i - mV w)) = j \/ snd (me w (i - mV w)) = j)).

  Lemma in_pl r c : (exists x, In (r, c, x) pl) <->
    exists i j, i < mV wf /\ j < mV w /\ isfree wf i = true /\ isfree w j = true /\ meets i j /\ nf i = r /\ nc j = c.
  Proof.
    destruct Href as (EVF & _). destruct Hok as (He & _).
    unfold pl. split.
    - intros (x & H). apply in_concat in H as (l & Hl & H). apply in_map_iff in Hl as (i & <- & Hi).
      apply in_seq in Hi. unfold plist in H. destruct (isfree wf i) eqn:Ei; [|destruct H].
      assert (O : forall v y, v < mV w -> In (r, c, x) (one (nf i) v y) -> meets i v ->
        exists i j, i < mV wf /\ j < mV w /\ isfree wf i = true /\ isfree w j = true /\ meets i j /\ nf i = r /\ nc j = c).
      { intros v y Hv Hin Hm. unfold one in Hin. destruct (isfree w v) eqn:Ev; [|destruct Hin].
        destruct Hin as [E|[]]. injection E as <- <- _. exists i, v. split; [lia|]. auto 8. }
      destruct (Nat.ltb_spec i (mV w)) as [Hlt|Hge].
      + eapply O; [exact Hlt|exact H|]. left. auto.
      + destruct (He (i - mV w) ltac:(lia)) as (B1 & B2 & _).
        apply in_app_iff in H as [H|H]; (eapply O; [|exact H|]; [assumption|right; split; [lia|auto]]).
    - intros (i & j & Hi & Hj & Fi & Fj & Hm & <- & <-).
      destruct Hm as [[Hlt ->]|[Hge Hm]].
      + exists f1. apply in_concat. exists (plist j). split; [apply in_map, in_seq; lia|].
        unfold plist. rewrite Fi. destruct (Nat.ltb_spec j (mV w)); [|lia]. unfold one. rewrite Fj. left. reflexivity.
      + exists (half K). apply in_concat. exists (plist i). split; [apply in_map, in_seq; lia|].
        unfold plist. rewrite Fi. destruct (Nat.ltb_spec i (mV w)); [lia|]. apply in_app_iff.
        destruct Hm as [<- | <-]; [left|right]; unfold one; rewrite Fj; left; reflexivity.
  Qed.

  Lemma val_one ii v x i j : j < mV w -> v < mV w -> isfree w j = true ->
    lsum (hit (nf i) (nc j)) (one ii v x) = if (ii =? nf i) && (v =? j) then x else @f0 K.
  Proof.
    intros Hj Hv Fj. unfold one. destruct (isfree w v) eqn:Fv; cbn [lsum].
    - unfold hit. cbn [fst snd]. replace (nc v =? nc j) with (v =? j); [ring|].
      destruct (Nat.eqb_spec v j) as [->|N]; [symmetry; apply Nat.eqb_refl|]. symmetry. apply Nat.eqb_neq.
      intros E. apply N. apply (num_inj dcr w nc Hc); [exact Hv|exact Hj|congruence|exact E].
    - destruct (Nat.eqb_spec v j) as [->|N]; [congruence|]. rewrite andb_false_r. reflexivity.
  Qed.

  Lemma val_pl i j : i < mV wf -> j < mV w -> isfree wf i = true -> isfree w j = true ->
    val pl (nf i) (nc j) = hat_fine w j i.
  Proof.
    intros Hi Hj Fi Fj. unfold val, pl. rewrite (lsum_seq L). destruct Href as (EVF & _). destruct Hok as (He & _).
    rewrite (sum_single L _ i _ Hi).
    - cbn [plus]. unfold plist, hat_fine. rewrite Fi. destruct (Nat.ltb_spec i (mV w)) as [Hlt|Hge].
      + rewrite val_one by assumption. rewrite Nat.eqb_refl. reflexivity.
      + destruct (He (i - mV w) ltac:(lia)) as (B1 & B2 & N). rewrite (lsum_app L), !val_one by assumption.
        rewrite Nat.eqb_refl. cbn [andb]. unfold hat_mid.
        destruct (Nat.eqb_spec (fst (me w (i - mV w))) j), (Nat.eqb_spec (snd (me w (i - mV w))) j); cbn [orb]; try congruence; ring.
    - intros i' Hi' Ne. cbn [plus]. unfold plist. destruct (isfree wf i') eqn:Fi'; [|reflexivity].
      assert (Z : (nf i' =? nf i) = false).
      { apply Nat.eqb_neq. intros E. apply Ne. apply (num_inj df wf nf Hf); [exact Hi'|exact Hi|congruence|exact E]. }
      destruct (Nat.ltb_spec i' (mV w)) as [Hlt|Hge].
      + rewrite val_one by assumption. rewrite Z. reflexivity.
      + destruct (He (i' - mV w) ltac:(lia)) as (B1 & B2 & N). rewrite (lsum_app L), !val_one by assumption.
        rewrite Z. cbn [andb]. ring.
  Qed.

  Lemma run_prolong : 0 < p1_ndof df -> 0 < p1_ndof dcr ->
    rok (build_tri2dp1_prolongation_sparsematrix df dcr rf) (fun o => exists a M, o = Some a /\
      sparse_is a (p1_ndof df) (p1_ndof dcr)
        (fun r c => exists i j, i < mV wf /\ j < mV w /\ isfree wf i = true /\ isfree w j = true /\ meets i j /\
           nf i = r /\ nc j = c) M /\
      forall i j, i < mV wf -> j < mV w -> isfree wf i = true -> isfree w j = true ->
        M (nf i) (nc j) = hat_fine w j i).
  Proof.
    intros Hr Hcc. unfold build_tri2dp1_prolongation_sparsematrix.
    assert (B : forall r c x, In (r, c, x) pl -> r < p1_ndof df /\ c < p1_ndof dcr).
    { intros r c x Hin. destruct (proj1 (in_pl r c)) as (i & j & Hi & Hj & Fi & Fj & _ & <- & <-); [exists x; exact Hin|].
      split; [apply (num_free df wf nf Hf)|apply (num_free dcr w nc Hc)]; assumption. }
    apply rok_bind. apply rok_new_pat; [exact Hr|exact Hcc|]. intros sp0 H0. apply rok_bind.
    rewrite (prolong_list addp sp0 : prolong_with df dcr rf (fun ii jj _ sp => addnz_sparsepattern sp ii jj) (Some sp0) = _).
    fold pl. apply rok_bind. eapply rok_conseq; [apply rok_addp_list; [exact H0|exact B]|].
    intros sp1 H1. cbv beta in H1. cbn [rok]. apply rok_bind.
    eapply rok_conseq; [apply (rok_new_zero_set L); exact H1|]. intros a Ha. cbv beta in Ha.
    rewrite (prolong_list addm a : prolong_with df dcr rf (fun ii jj x a => addentry a ii jj x) (Some a) = _). fold pl.
    apply rok_bind. eapply rok_conseq.
    - apply (rok_addm_list L); [exact Ha|]. intros r c x Hin. destruct (B r c x Hin) as [B1 B2].
      split; [exact B1|]. split; [exact B2|]. split; [exact B2|]. right. exists x. exact Hin.
    - intros a' Ha'. cbn [rok]. eexists a', _. split; [reflexivity|]. split.
      + eapply sparse_is_ext; [exact Ha'| |reflexivity]. intros r c Hrr. cbv beta. rewrite in_pl. split.
        * intros (_ & [[]|H]). exact H.
        * intros H. split; [|auto]. destruct H as (i & j & Hi & Hj & Fi & Fj & _ & _ & <-).
          apply (num_free dcr w nc Hc); assumption.
      + intros i j Hi Hj Fi Fj. cbv beta. rewrite val_pl by assumption. ring.
  Qed.
End Prolong.

(** ** Boundary values and the maximum norm *)
Section Values.
  Context {K : ofops} (dc : tri2dp1 K) (w : mview K) (num : nat -> nat) (Hs : space_is dc w num).

  Lemma run_dirichlet (d : option (K * K -> K)) dv : length dv = p1_nfix dc ->
    rok (assemble_tri2dp1_dirichlet_avector dc d dv) (fun dv' => exists g, aval dv' (p1_nfix dc) g /\
      forall v, v < mV w -> ~ free w v -> g (num v) = match d with Some d => d (mx w v) | None => f0 end).
  Proof.
    intros Hlen. pose proof Hs as ((EV & _ & _ & Ax & _) & Hd & Hi & _ & (_ & _ & Hsur)).
    unfold assemble_tri2dp1_dirichlet_avector. rewrite Hlen, Nat.eqb_refl. cbn [rassert rbind]. rewrite EV.
    set (D := fun v => match d with Some d => d (mx w v) | None => f0 end).
    apply (rok_for (fun i a => exists g, aprt a (p1_nfix dc) (fun r => exists v, v < i /\ isfree w v = false /\ num v = r) g /\
      forall v, v < i -> isfree w v = false -> g (num v) = D v)).
    - exists (fun _ => f0). split; [|intros; lia]. split; [exact Hlen|]. intros r _ (v & Hv & _). lia.
    - intros i a Hin (g & Hg & HG). unfold when_dof. rewrite (aval_get _ _ _ _ Hd) by lia. cbn [rbind]. fold (isfree w i).
      destruct (isfree w i) eqn:E; cbn [Bool.eqb].
      + cbn [rok]. exists g. split.
        * eapply aprt_ext; [exact Hg| |reflexivity]. intros r _ (v & Hv & Ev & Er). exists v. split; [|auto].
          assert (v <> i) by congruence. lia.
        * intros v Hv Ev. apply HG; [|exact Ev]. assert (v <> i) by congruence. lia.
      + rewrite (aval_get _ _ _ _ Hi) by lia. cbn [rbind].
        pose proof (num_fix dc w num Hs i ltac:(lia) E) as N. rewrite (proj2 (Nat.ltb_lt _ _) N). cbn [rassert rbind].
        rewrite (aval_get _ _ _ _ Ax) by lia. cbn [rbind]. fold (D i).
        eapply rok_aset_prt; [exact Hg|exact N|]. intros a' Ha'. eexists. split.
        * eapply aprt_ext; [exact Ha'| |reflexivity]. cbv beta. intros r _ (v & Hv & Ev & Er).
          destruct (Nat.eq_dec v i) as [->|Ne]; [left; auto|right; exists v; split; [lia|auto]].
        * intros v Hv Ev. unfold afupd. destruct (Nat.eqb_spec (num v) (num i)) as [En|En].
          -- assert (v = i) by (apply (num_inj dc w num Hs); [lia|lia|congruence|exact En]). subst v. reflexivity.
          -- apply HG; [|exact Ev]. assert (v <> i) by congruence. lia.
    - change (0 + mV w) with (mV w). intros a (g & Hg & HG). exists g. split.
      + eapply aprt_aval; [|exact Hg]. intros r Hr. destruct (Hsur r Hr) as (v & Hv & Fv & Ev).
        exists v. split; [exact Hv|]. split; [apply Nat.eqb_neq; exact Fv|exact Ev].
      + intros v Hv Fv. apply HG; [exact Hv|]. apply Nat.eqb_neq. exact Fv.
  Qed.

  Context (O : order_laws K).
  Lemma run_normmax (u : K * K -> K) xs c : aval xs (p1_ndof dc) c ->
    rok (normmax_tri2dp1 dc u xs) (fun n => fle f0 n /\
      (forall v, v < mV w -> free w v -> fle (rabs (u (mx w v) - c (num v))%F) n) /\
      (n = f0 \/ exists v, v < mV w /\ free w v /\ n = rabs (u (mx w v) - c (num v))%F)).
  Proof.
    intros Hx. pose proof Hs as ((EV & _ & _ & Ax & _) & Hd & Hi & _).
    unfold normmax_tri2dp1. destruct Hx as [Hlen Hx0] eqn:EX. rewrite Hlen, Nat.eqb_refl. cbn [rassert rbind]. rewrite EV.
    pose proof (conj Hlen Hx0 : aval xs (p1_ndof dc) c) as Hxx. clear EX.
    apply (rok_for (fun i n => fle f0 n /\
      (forall v, v < i -> isfree w v = true -> fle (rabs (u (mx w v) - c (num v))%F) n) /\
      (n = f0 \/ exists v, v < i /\ isfree w v = true /\ n = rabs (u (mx w v) - c (num v))%F))).
    - split; [apply (ole_refl O)|]. split; [intros; lia|left; reflexivity].
    - intros i n Hin (H0 & H1 & H2). unfold when_dof. rewrite (aval_get _ _ _ _ Hd) by lia. cbn [rbind]. fold (isfree w i).
      destruct (isfree w i) eqn:E; cbn [Bool.eqb].
      + rewrite (aval_get _ _ _ _ Hi) by lia. cbn [rbind].
        pose proof (num_free dc w num Hs i ltac:(lia) E) as N. rewrite (proj2 (Nat.ltb_lt _ _) N). cbn [rassert rbind].
        rewrite (aval_get _ _ _ _ Ax) by lia. cbn [rbind]. rewrite (aval_get _ _ _ _ Hxx) by exact N. cbn [rbind rok].
        set (val := rabs (u (mx w i) - c (num i))%F).
        destruct (flt n val) eqn:F.
        * split; [eapply (ole_trans O); [exact H0|apply (olt_le O); exact F]|]. split.
          -- intros v Hv Ev. destruct (Nat.eq_dec v i) as [->|Ne]; [apply (ole_refl O)|].
             eapply (ole_trans O); [apply H1; [lia|exact Ev]|apply (olt_le O); exact F].
          -- right. exists i. auto.
        * split; [exact H0|]. split.
          -- intros v Hv Ev. destruct (Nat.eq_dec v i) as [->|Ne]; [exact F|apply H1; [lia|exact Ev]].
          -- destruct H2 as [->|(v & Hv & Ev & ->)]; [left; reflexivity|right; exists v; auto].
      + cbn [rok]. split; [exact H0|]. split.
        * intros v Hv Ev. apply H1; [|exact Ev]. assert (v <> i) by congruence. lia.
        * destruct H2 as [->|(v & Hv & Ev & ->)]; [left; reflexivity|right; exists v; auto].
    - change (0 + mV w) with (mV w). intros n (H0 & H1 & H2). split; [exact H0|]. split.
      + intros v Hv Fv. apply H1; [exact Hv|]. apply Nat.eqb_eq. exact Fv.
      + destruct H2 as [->|(v & Hv & Ev & ->)]; [left; reflexivity|right]. exists v. split; [exact Hv|].
        split; [apply Nat.eqb_eq; exact Ev|reflexivity].
  Qed.
End Values.
