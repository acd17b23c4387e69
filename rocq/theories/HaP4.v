(** * Vectors and dense matrices as right-hand sides; permuted vectors (model: Harith.v) *)
From Coq Require Import Arith Lia List Bool Ring.
From Verif Require Import Fld Ord Prog Arr View Spec Loop FactorSpec Cluster Block BlockP Avector AvectorP Amatrix AmatrixP AmatrixP2 Norm NormP
  Factor FactorP FactorP2 LrP3 CbP2 Rkmatrix RkSpec RkP Hmatrix HmSpec HmP HmP2 HmP3 Harith HaSpec HaP HaP2 HaP3.
Import ListNotations.

Section HaP4.
Context {K : fops} {G : ofops} (Lf : field_laws K).
Let L := fl_ring K Lf.
Add Ring KringHa4 : (rl_ring K L).
Implicit Types (m : mem K) (R W : addr -> Prop) (h s : hmatrix G) (D F H : nat -> nat -> K).

Definition vxval m (x : vec) F : Prop := vval m x (fun p => F p 0).


Definition vlaws : rlaws (@vrhs K G).
Proof.
  refine (@RLaws K G vrhs (fun _ => 1) (fun _ => True) vxval inv subv _ _ _ _ _ _ _ _ _ _ _ _ _ _); cbn [vrhs rhsT rsize rsub rdone rsolve reval radd].
  - intros R W x k off m Q Hk HQ. apply wp_init_sub_avector; assumption.
  - intros R W x k off m Q HQ. exact HQ.
  - reflexivity.
  - reflexivity.
  - intros; exact Logic.I.
  - intros x off k a Hk Ha. eapply inv_subv; eassumption.
  - intros x off k off' k' _ H1 H2 H3. apply subv_sep; assumption.
  - intros W m m' x F Hx Hk Hd. eapply vval_keeps; eassumption.
  - intros m x F F' Hx E. eapply vval_ext; [exact Hx|]. intros i Hi. symmetry. apply E; [exact Hi|lia].
  - intros m x off k F Hx Hk. apply (vval_subv m x (fun p => F p 0) off k Hx Hk).
  - intros m m' x off k F F' _ Hx Hk Hx' Hkp. eapply vval_ext; [eapply vval_subv_back; [exact Hx|exact Hk|exact Hx'|exact Hkp]|].
    intros i Hi. unfold inb. destruct ((off <=? i) && (i <? off + k)); reflexivity.
  - intros R W lower aunit t A x n D F m Q HA E1 E2 Ex _ Hx Dx RA Wx Hd HQ.
    eapply (wp_triangularsolve_amatrix_avector Lf R W lower aunit t A x D (fun p => F p 0)); try assumption; try lia.
    + intros a (i & j & Hi & Hj & _ & ->). apply Dx. exists i, j; auto.
    + intros a (i & j & Hi & Hj & _ & ->). apply RA. exists i, j; auto.
    + rewrite E1, E2, Nat.min_id. exact Hd.
    + rewrite E1, E2, Nat.min_id. intros x' m' Hs _ Hx' Hk'. apply (HQ (fun p _ => x' p)); [|exact Hx'|exact Hk'].
      intros p c Hp Hc. replace c with 0 by lia. apply Hs, Hp.
  - intros R W lower aunit t A x n D F m Q HA E1 E2 Ex _ Hx Dx RA Wx HQ.
    eapply (wp_triangulareval_amatrix_avector L R W lower aunit t A x D (fun p => F p 0)); try assumption; try lia.
    + intros a (i & j & Hi & Hj & _ & ->). apply Dx. exists i, j; auto.
    + intros a (i & j & Hi & Hj & _ & ->). apply RA. exists i, j; auto.
    + intros m' Hx' Hk'. apply HQ; [|exact Hk']. eapply vval_ext; [exact Hx'|]. intros i Hi; cbv beta.
      unfold oprows, opcols. rewrite (proj2 (Nat.ltb_lt i _)) by (destruct t; lia). unfold mvec. destruct t; rewrite ?E1, ?E2; reflexivity.
  - intros R W alpha t s x y D F H m Q Hs Ex Ey _ _ _ Hx Hy Dxy Dsy Rs Rx Wy HQ. rewrite Ex in HQ. destruct t.
    + eapply (wp_fastaddevaltrans L s R W alpha x y D); try eassumption. 
    + eapply (wp_fastaddeval L s R W alpha x y D); try eassumption.
Defined.

Definition mlaws (xt : bool) : rlaws (@mrhs K G xt).
Proof.
  refine (@RLaws K G (mrhs xt) (tcols xt) mwf (tval xt) inm (tsub xt) _ _ _ _ _ _ _ _ _ _ _ _ _ _); cbn [mrhs rhsT rsize rsub rdone rsolve reval radd].
  - intros R W x k off m Q Hk HQ. apply wp_subpart; assumption.
  - intros R W x k off m Q HQ. apply wp_tsub_done. exact HQ.
  - intros. apply trows_tsub.
  - intros. apply tcols_tsub.
  - intros. apply mwf_tsub; assumption.
  - intros x off k a Hk Ha. eapply in_tsub; eassumption.
  - intros. apply tsub_disj; assumption.
  - intros W m m' x F Hx Hk Hd. eapply tval_keeps; eassumption.
  - intros m x F F' Hx E. eapply tval_ext; [exact Hx|]. exact E.
  - intros m x off k F Hx Hk. apply tval_tsub; assumption.
  - intros m m' x off k F F' Hw Hx Hk Hx' Hkp. eapply tval_back; eassumption.
  - intros R W lower aunit t A x n D F m Q HA E1 E2 Ex Hw Hx Dx RA Wx Hd HQ.
    eapply (wp_triangularsolve_amatrix Lf R W lower aunit t A xt x D (tr xt F)); try assumption.
    + intros a (i & j & Hi & Hj & _ & ->). apply Dx. exists i, j; auto.
    + intros a (i & j & Hi & Hj & _ & ->). apply RA. exists i, j; auto.
    + unfold lnn, trows in *. destruct xt; lia.
    + rewrite E1, E2, Nat.min_id. exact Hd.
    + rewrite E1, E2, Nat.min_id. intros x' m' Hs _ Hx' Hk'. apply (HQ (tr xt x')); [| |exact Hk'].
      * intros p c Hp Hc. rewrite <- (tr_tr L xt F p c). apply Hs; [exact Hp|]. unfold nln, tcols in *. destruct xt; exact Hc.
      * eapply mval_ext; [exact Hx'|]. intros i j Hi Hj. symmetry. apply (tr_tr L).
  - intros R W lower aunit t A x n D F m Q HA E1 E2 Ex Hw Hx Dx RA Wx HQ.
    eapply (wp_triangulareval_amatrix L R W lower aunit t A xt x D (tr xt F)); try assumption.
    + intros a (i & j & Hi & Hj & _ & ->). apply Dx. exists i, j; auto.
    + intros a (i & j & Hi & Hj & _ & ->). apply RA. exists i, j; auto.
    + unfold lnn, trows in *. destruct xt; lia.
    + unfold lnn, trows in *. destruct xt; lia.
    + intros x' m' Hs _ Hx' Hk'. apply HQ; [|exact Hk'].
      apply (tval_ext xt m' x (tr xt x')).
      * eapply mval_ext; [exact Hx'|]. intros i j Hi Hj. symmetry. apply (tr_tr L).
      * intros p c Hp Hc. rewrite Hs; [|unfold oprows; destruct t; lia|unfold nln, tcols in *; destruct xt; exact Hc].
        unfold mmul, opcols. destruct t; rewrite ?E1, ?E2; apply sum_ext; intros q Hq; rewrite (tr_tr L); reflexivity.
  - intros R W alpha t s x y D F H m Q Hs Ex Ey Ec _ Hw Hx Hy Dxy Dsy Rs Rx Wy HQ.
    eapply (wp_addmul_h L s R W alpha t xt x xt y D F H); try eassumption.
Defined.

(** ** Permuted vectors *)
Lemma wp_perm R W idx (a : hmatrix G) (x : vec) (g : nat -> nat) (b : nat -> K) work m (Post : (nat -> K) -> Prop) (Q : unit -> mem K -> Prop) :
  perm_at idx (c_off (cp_c (hm_rc a))) (hrows a) g -> vdim x = hrows a -> vval m x b -> vblk x < next m -> wrok W (inv x) ->
  (forall xp m1 (Q' : unit -> mem K -> Prop), vdim xp = hrows a -> vblk xp = next m -> vval m1 xp (fun i => b (g i)) -> keeps (fun c => fst c = next m) m m1 ->
     (forall y' m2, Post y' -> vval m2 xp y' -> keeps (inv xp) m1 m2 -> Q' tt m2) ->
     wp R (fun c => W c \/ fst c = next m) (work xp) m1 Q') ->
  (forall y y' m', Post y' -> vval m' x y -> (forall i, i < hrows a -> y (g i) = y' i) -> keeps (inv x) m m' -> Q tt m') ->
  wp R W (permuted idx a x work) m Q.
Proof.
  intros (P1 & P2 & P3) Ex Hx Bx Wx Hwork HQ. unfold permuted. cbv zeta. unfold init_avector. cbn [bind palloc wp].
  set (n := hrows a) in *. set (xp := Vec (next m) 0 n true). set (m1 := alloc m n).
  set (W1 := fun c => W c \/ fst c = next m).
  assert (N1 : next m1 = S (next m)) by reflexivity.
  assert (K1 : keeps (fun c => fst c = next m) m m1).
  { eapply keeps_mono; [|apply (keeps_alloc m n (fun _ => False)); apply keeps_refl]. cbn. intros ? [[]|?]; assumption. }
  assert (Vxp : vblk xp = next m) by reflexivity. assert (Dxp : vdim xp = n) by reflexivity.
  assert (Dx : disj (inv x) (inv xp)) by (apply disj_vv_blk; lia).
  apply wp_bind. eapply (wp_vfill R W1 xp n (fun i => b (g i))).
  { apply valloc_fresh. }
  { reflexivity. }
  { intros i m2 Hi Ha Hk _. rewrite P1 by exact Hi. cbn [lift bind]. specialize (P2 i Hi).
    apply wp_bind. eapply wp_vload; [eapply vval_keeps; [|exact Hk|exact Dx]| | |].
    - eapply vval_keeps; [exact Hx|exact K1|]. intros c Hc Hb. apply inv_blk in Hc. lia.
    - lia.
    - intros c Hc. right. left. apply Wx. exact Hc.
    - apply wp_vstore; [exact Ha|lia|intros c Hc; right; apply inv_blk in Hc; lia|]. apply wrote_upd; [apply Ha; lia|reflexivity]. }
  intros m2 Hxp K2. pose proof (proj1 K2) as N2.
  assert (K2' : keeps (fun c => fst c = next m) m m2).
  { eapply keeps_trans; [exact K1|]. eapply keeps_mono; [|exact K2]. intros c Hc. apply inv_blk in Hc. lia. }
  apply wp_bind. apply Hwork; [reflexivity|reflexivity|exact Hxp|exact K2'|].
  intros y' m3 Hy' Hxp3 K3. pose proof (proj1 K3) as N3.
  assert (K3' : keeps (fun c => fst c = next m) m m3).
  { eapply keeps_trans; [exact K2'|]. eapply keeps_mono; [|exact K3]. intros c Hc. apply inv_blk in Hc. lia. }
  assert (Ax3 : valloc m3 x) by (apply (valloc_keeps _ _ _ _ (vval_alloc _ _ _ Hx) K3'); intros c Hc Hb; apply inv_blk in Hc; lia).
  apply wp_bind.
  apply (wp_for (fun k m4 => (forall i, i < k -> get m4 (va x (g i)) = Val (y' i)) /\ valloc m4 x /\ keeps (inv x) m3 m4)).
  - split; [intros; lia|]. split; [exact Ax3|apply keeps_refl].
  - intros i m4 [_ Hi] (H1 & H2 & H3). cbn in Hi. pose proof (P2 i Hi) as Hgi.
    apply wp_bind. eapply wp_vload; [eapply vval_keeps; [exact Hxp3|exact H3|]|lia| |].
    + intros c Hc Hb. exact (Dx c Hb Hc).
    + intros c Hc. right. right. apply inv_blk in Hc. lia.
    + rewrite P1 by exact Hi. cbn [lift bind]. assert (Hnf : get m4 (va x (g i)) <> Free) by (apply H2; lia).
      apply wp_vstore; [exact H2|lia|intros c Hc; left; apply Wx, Hc|].
      split; [|split].
      * intros k Hk. rewrite get_upd by exact Hnf. destruct (addr_eqb_spec (va x (g k)) (va x (g i))) as [E|E].
        -- apply va_inj in E. rewrite (P3 k i) by (try lia; exact E). reflexivity.
        -- destruct (Nat.eq_dec k i) as [->|]; [congruence|]. apply H1. lia.
      * apply valloc_upd. exact H2.
      * apply keeps_upd_r; [exact H3|]. apply inv_va. lia.
  - intros m4 (H1 & H2 & H3). cbn [Nat.add] in *. pose proof (proj1 H3) as N4.
    unfold uninit_avector. cbn [vown xp bind pfree wp vblk].
    split; [lia|]. split; [intros o; right; reflexivity|].
    set (y := fun k => match get m4 (va x k) with Val v => v | _ => f0 end).
    apply (HQ y y'); [exact Hy'| | |].
    + intros k Hk. rewrite Ex in Hk. destruct (perm_onto n g P2 P3 k Hk) as (i & Hi & <-).
      rewrite get_dealloc. cbn [fst va]. destruct (Nat.eqb_spec (vblk x) (next m)); [lia|]. unfold y. rewrite H1 by exact Hi. reflexivity.
    + intros i Hi. unfold y. rewrite H1 by exact Hi. reflexivity.
    + apply keeps_dealloc; [lia|]. eapply keeps_trans; [eapply keeps_mono; [|exact K3']; intros c Hc; right; exact Hc|].
      eapply keeps_mono; [|exact H3]. intros c Hc; left; exact Hc.
Qed.
End HaP4.
