(** * Proofs about triangular H-matrices: substitution and products, for any kind of right-hand side *)
From Coq Require Import Arith Lia List Bool Ring.
From Verif Require Import Fld Ord Prog Arr View Spec Loop FactorSpec Cluster Block BlockP Avector AvectorP Amatrix AmatrixP AmatrixP2 Norm NormP
  Factor FactorP FactorP2 Rkmatrix RkSpec RkP Hmatrix HmSpec HmP HmP2 HmP3 Harith HaSpec HaP.
Import ListNotations.

Section HaP2.
Context {K : fops} {G : ofops} (L : ring_laws K).
Add Ring KringHa2 : (rl_ring K L).
Context (X : @rhs K G) (Y : rlaws X).
Implicit Types (m : mem K) (R W : addr -> Prop) (h s : hmatrix G) (D U F : nat -> nat -> K) (x : rhsT X).

Ltac bolr := unfold inb in *; repeat first [rewrite orb_true_iff | rewrite andb_true_iff | rewrite Nat.leb_le | rewrite Nat.ltb_lt | rewrite Nat.eqb_eq].
Ltac bol := apply Bool.eq_iff_eq_true; bolr; lia.

(** The block of the matrix [U] in row [j] and column [i] is given by the son for [blk]. *)
Definition isblk m (t : bool) (l : list (hmatrix G)) (n : nat) (hs : nat -> nat) U (j i : nat) : Prop :=
  exists s Ds, nth_error l (blk t n j i) = Some s /\ hrep m s Ds /\
    (if t then hrows s else hcols s) = hs i /\ (if t then hcols s else hrows s) = hs j /\
    (forall p q, p < hs j -> q < hs i -> tr t Ds p q = U (nsum j hs + p) (nsum i hs + q)).

Section Upd.
Variables (R W : addr -> Prop) (alpha : K) (t : bool) (l : list (hmatrix G)) (n : nat) (hs : nat -> nat) (U : nat -> nat -> K) (i : nat) (x : rhsT X) (m0 : mem K).
Hypothesis Hi : i < n.
Hypothesis Hrow : forall j s, j < n -> nth_error l j = Some s -> hrows s = hs j.
Hypothesis Hlen : n <= length l.
Hypothesis Hsz : rsize X x = nsum n hs.
Hypothesis Hwf : xwf X Y x.
Hypothesis Dx : forall s, In s l -> disj (inh s) (xin X Y x).
Hypothesis Rl : forall s, In s l -> rdok R W (inh s).
Hypothesis Wx : wrok W (xin X Y x).

Definition contrib F p c : K := sum (hs i) (fun q => U p (nsum i hs + q)%nat * F (nsum i hs + q)%nat c)%F.

Lemma fitn j : j < n -> nsum j hs + hs j <= rsize X x.
Proof using Hsz. clear -Hsz. intros Hj. rewrite Hsz. apply nsum_in, Hj. Qed.

Lemma blocks_apart j : j < n -> j <> i -> nsum i hs + hs i <= nsum j hs \/ nsum j hs + hs j <= nsum i hs.
Proof using Hi. clear -Hi. intros Hj Hne. destruct (Nat.lt_ge_cases i j) as [H|H]; [left|right].
  - apply nsum_in, H. - apply nsum_in. lia. Qed.

Lemma wp_tgt {S} j (z : S) F m (Q : S -> mem K -> Prop) : j < n -> j <> i -> isblk m0 t l n hs U j i ->
  xval X Y m x F -> keeps (xin X Y x) m0 m ->
  (forall m', xval X Y m' x (fun p c => if inb (nsum j hs) (hs j) p then F p c + alpha * contrib F p c else F p c)%F ->
     keeps (xin X Y x) m m' -> Q z m') ->
  wp R W (xp2 <- rsub X x (hs j) (nsum j hs) ;; s <- sget (Some l) (blk t n j i) ;; radd X alpha t s (xsub X Y x (nsum i hs) (hs i)) xp2 ;;; rdone X xp2 ;;; Ret z) m Q.
Proof using All.
  intros Hj Hne (s & Ds & E1 & E2 & E3 & E4 & E5) Hx Hk HQ.
  pose proof (fitn j Hj) as Bj. pose proof (fitn i Hi) as Bi. pose proof (blocks_apart j Hj Hne) as Ap.
  assert (Is : In s l) by (eapply nth_error_In; exact E1).
  apply wp_bind. apply (x_sub X Y); [exact Bj|]. rewrite (sget_some _ _ _ E1). cbn [bind]. apply wp_bind.
  eapply (x_add X Y R W alpha t s) with (D := Ds).
  - eapply hrep_keeps; [exact E2|exact Hk|apply Dx, Is].
  - rewrite (x_size X Y). symmetry. exact E3.
  - rewrite (x_size X Y). symmetry. exact E4.
  - rewrite !(x_cols X Y). reflexivity.
  - apply (x_wf X Y); assumption.
  - apply (x_wf X Y); assumption.
  - apply (x_valsub X Y); [exact Hx|exact Bi].
  - apply (x_valsub X Y); [exact Hx|exact Bj].
  - apply (x_disj X Y); assumption.
  - intros a Ha Hb. apply (Dx s Is a Ha). eapply (x_in X Y); [|exact Hb]. exact Bj.
  - apply Rl, Is.
  - intros a Ha. right. apply Wx. eapply (x_in X Y); [|exact Ha]. exact Bi.
  - intros a Ha. apply Wx. eapply (x_in X Y); [|exact Ha]. exact Bj.
  - intros m' Hv Hk'. apply wp_bind. apply (x_done X Y). cbn [wp].
    apply HQ; [|eapply keeps_mono; [|exact Hk']; intros a Ha; eapply (x_in X Y); [|exact Ha]; exact Bj].
    eapply (x_ext X Y); [eapply (x_back X Y); [exact Hwf|exact Hx|exact Bj|exact Hv|exact Hk']|].
    intros p c Hp Hc; cbv beta. destruct (inb (nsum j hs) (hs j) p) eqn:E; [|reflexivity].
    unfold inb in E. apply andb_prop in E. destruct E as [F1 F2]. apply Nat.leb_le in F1. apply Nat.ltb_lt in F2.
    replace (nsum j hs + (p - nsum j hs)) with p by lia. f_equal. f_equal. rewrite (x_size X Y). unfold contrib. apply sum_ext. intros q Hq.
    rewrite E5 by lia. replace (nsum j hs + (p - nsum j hs)) with p by lia. reflexivity.
Qed.

Lemma contrib_ext F F' p c : (forall q, q < hs i -> F' (nsum i hs + q) c = F (nsum i hs + q) c) -> contrib F' p c = contrib F p c.
Proof. intros H. unfold contrib. apply sum_ext. intros q Hq. rewrite H by exact Hq. reflexivity. Qed.

Lemma wp_updafter F m (Q : nat -> mem K -> Prop) : (forall j, i < j < n -> isblk m0 t l n hs U j i) ->
  xval X Y m x F -> keeps (xin X Y x) m0 m ->
  (forall m', xval X Y m' x (fun p c => if nsum i hs + hs i <=? p then F p c + alpha * contrib F p c else F p c)%F ->
     keeps (xin X Y x) m m' -> Q (nsum n hs) m') ->
  wp R W (updafter X alpha t (Some l) n i x (xsub X Y x (nsum i hs) (hs i)) (nsum i hs + hs i)) m Q.
Proof using All.
  intros Hb Hx Hk HQ. unfold updafter.
  apply (wp_forS (fun j off m1 => off = nsum j hs /\
    xval X Y m1 x (fun p c => if (nsum i hs + hs i <=? p) && (p <? nsum j hs) then F p c + alpha * contrib F p c else F p c)%F /\ keeps (xin X Y x) m m1)).
  - replace (i + 1) with (S i) by lia. split; [reflexivity|]. split; [|apply keeps_refl].
    eapply (x_ext X Y); [exact Hx|]. intros p c Hp Hc; cbv beta. cbn [nsum].
    destruct (Nat.leb_spec (nsum i hs + hs i) p) as [E|E]; [|reflexivity]. rewrite (proj2 (Nat.ltb_ge _ _)) by lia. reflexivity.
  - intros j off m1 Hj (-> & Hx1 & Hk1). assert (Hji : i < j < n) by lia. clear Hj.
    destruct (nth_ex l j) as [sj Ej]; [lia|]. rewrite (sget_some _ _ _ Ej). cbn [bind]. rewrite (Hrow j sj) by (assumption || lia).
    eapply (wp_tgt j); [lia|lia|apply Hb; lia|exact Hx1|eapply keeps_trans; eassumption|].
    intros m2 Hx2 Hk2. split; [reflexivity|]. split; [|eapply keeps_trans; eassumption].
    pose proof (nsum_in hs i j (proj1 Hji)) as Bij.
    eapply (x_ext X Y); [exact Hx2|]. intros p c Hp Hc; cbv beta. cbn [nsum].
    rewrite (contrib_ext F (fun p c => if (nsum i hs + hs i <=? p) && (p <? nsum j hs) then F p c + alpha * contrib F p c else F p c)%F)
      by (intros q Hq; rewrite (proj2 (Nat.leb_gt _ _)) by lia; reflexivity).
    unfold inb. destruct (Nat.leb_spec (nsum j hs) p) as [H1|H1]; cbn [andb].
    + rewrite (proj2 (Nat.ltb_ge p (nsum j hs))) by lia. rewrite (proj2 (Nat.leb_le (nsum i hs + hs i) p)) by lia. cbn [andb].
      destruct (Nat.ltb_spec p (nsum j hs + hs j)); reflexivity.
    + rewrite (proj2 (Nat.ltb_lt p (nsum j hs))) by lia. rewrite (proj2 (Nat.ltb_lt p (nsum j hs + hs j))) by lia. reflexivity.
  - intros off m1 (-> & Hx1 & Hk1). replace (i + 1 + (n - (i + 1))) with n in * by lia. apply HQ; [|exact Hk1].
    eapply (x_ext X Y); [exact Hx1|]. intros p c Hp Hc; cbv beta. rewrite (proj2 (Nat.ltb_lt p (nsum n hs))) by lia. rewrite andb_true_r. reflexivity.
Qed.

Lemma wp_updbefore F m (Q : nat -> mem K -> Prop) : (forall j, j < i -> isblk m0 t l n hs U j i) ->
  xval X Y m x F -> keeps (xin X Y x) m0 m ->
  (forall m', xval X Y m' x (fun p c => if p <? nsum i hs then F p c + alpha * contrib F p c else F p c)%F ->
     keeps (xin X Y x) m m' -> Q 0 m') ->
  wp R W (updbefore X alpha t (Some l) n i x (xsub X Y x (nsum i hs) (hs i)) (nsum i hs)) m Q.
Proof using All.
  intros Hb Hx Hk HQ. unfold updbefore.
  apply (wp_forS (fun k off m1 => off = nsum (i - k) hs /\
    xval X Y m1 x (fun p c => if (nsum (i - k) hs <=? p) && (p <? nsum i hs) then F p c + alpha * contrib F p c else F p c)%F /\ keeps (xin X Y x) m m1)).
  - rewrite Nat.sub_0_r. split; [reflexivity|]. split; [|apply keeps_refl].
    eapply (x_ext X Y); [exact Hx|]. intros p c Hp Hc; cbv beta.
    destruct (Nat.leb_spec (nsum i hs) p) as [E|E]; [|reflexivity]. rewrite (proj2 (Nat.ltb_ge _ _)) by lia. reflexivity.
  - intros k off m1 Hj (-> & Hx1 & Hk1). cbv zeta. remember (i - 1 - k) as j eqn:Ejk. assert (Hji : j < i) by lia.
    replace (i - k) with (S j) in * by lia. replace (i - S k) with j by lia.
    destruct (nth_ex l j) as [sj Ej]; [lia|]. rewrite (sget_some _ _ _ Ej). cbn [bind]. rewrite (Hrow j sj) by (assumption || lia).
    unfold psub. cbn [nsum] in *. rewrite (proj2 (Nat.leb_le (hs j) (nsum j hs + hs j))) by lia. cbn [bind]. rewrite Nat.add_sub.
    eapply (wp_tgt j); [lia|lia|apply Hb; lia|exact Hx1|eapply keeps_trans; eassumption|].
    intros m2 Hx2 Hk2. split; [reflexivity|]. split; [|eapply keeps_trans; eassumption].
    pose proof (nsum_in hs j i Hji) as Bij.
    eapply (x_ext X Y); [exact Hx2|]. intros p c Hp Hc; cbv beta.
    rewrite (contrib_ext F (fun p c => if (nsum j hs + hs j <=? p) && (p <? nsum i hs) then F p c + alpha * contrib F p c else F p c)%F)
      by (intros q Hq; rewrite (proj2 (Nat.ltb_ge (nsum i hs + q) (nsum i hs))) by lia; rewrite andb_false_r; reflexivity).
    unfold inb. destruct (Nat.ltb_spec p (nsum j hs + hs j)) as [H1|H1]; cbn [andb].
    + rewrite (proj2 (Nat.leb_gt (nsum j hs + hs j) p)) by lia. rewrite (proj2 (Nat.ltb_lt p (nsum i hs))) by lia. cbn [andb]. reflexivity.
    + rewrite andb_false_r. rewrite (proj2 (Nat.leb_le (nsum j hs + hs j) p)) by lia. rewrite (proj2 (Nat.leb_le (nsum j hs) p)) by lia. reflexivity.
  - intros off m1 (-> & Hx1 & Hk1). cbn [Nat.add] in *. rewrite Nat.sub_diag in *. cbn [nsum] in *. apply HQ; [|exact Hk1].
    eapply (x_ext X Y); [exact Hx1|]. intros p c Hp Hc; cbv beta. reflexivity.
Qed.
End Upd.

Lemma tri_shift (lower aunit t : bool) D o p q :
  tr t (tripart lower aunit (fun p q => D (o + p) (o + q))) p q = tr t (tripart lower aunit D) (o + p) (o + q).
Proof.
  unfold tr, tripart. destruct t, lower; repeat match goal with |- context [?a =? ?b] => destruct (Nat.eqb_spec a b) | |- context [?a <? ?b] => destruct (Nat.ltb_spec a b) end; try lia; reflexivity.
Qed.
Lemma tri_0 (lower aunit t : bool) D p q : (if xorb lower t then p < q else q < p) -> tr t (tripart lower aunit D) p q = f0.
Proof.
  unfold tr, tripart. intros H. destruct t, lower; cbn [xorb] in H;
  repeat match goal with |- context [?a =? ?b] => destruct (Nat.eqb_spec a b) | |- context [?a <? ?b] => destruct (Nat.ltb_spec a b) end;
    try lia; try apply (fconj_0 L); reflexivity.
Qed.
Lemma tri_off (lower aunit : bool) D p q : (if lower then q < p else p < q) -> tripart lower aunit D p q = D p q.
Proof.
  unfold tripart. intros H. destruct lower;
  repeat match goal with |- context [?a =? ?b] => destruct (Nat.eqb_spec a b) | |- context [?a <? ?b] => destruct (Nat.ltb_spec a b) end; try lia; reflexivity.
Qed.

Lemma tri_isblk (lower aunit t : bool) m l n hs D j i :
  length l = n * n ->
  (forall i j s, i < n -> j < n -> nth_error l (i + j * n) = Some s -> hrows s = hs i /\ hcols s = hs j) ->
  (forall i j s, i < n -> j < n -> (if lower then j < i else i < j) -> nth_error l (i + j * n) = Some s ->
     hrep m s (fun p q => D (nsum i hs + p) (nsum j hs + q))) ->
  i < n -> j < n -> (if xorb lower t then i < j else j < i) ->
  isblk m t l n hs (tr t (tripart lower aunit D)) j i.
Proof.
  intros Hl Hs Ho Hi Hj Hij. unfold isblk, blk. destruct t.
  - destruct (nth_ex l (i + j * n)) as [s Es]; [rewrite Hl; apply pos_lt; assumption|].
    destruct (Hs i j s Hi Hj Es) as [E1 E2]. exists s, (fun p q => D (nsum i hs + p) (nsum j hs + q)). split; [exact Es|].
    split; [apply Ho; try assumption; destruct lower; exact Hij|]. split; [exact E1|]. split; [exact E2|].
    intros p q Hp Hq. unfold tr. f_equal. symmetry. apply tri_off. destruct lower; cbn [xorb negb] in Hij.
    + pose proof (nsum_in hs j i Hij). lia.
    + pose proof (nsum_in hs i j Hij). lia.
  - destruct (nth_ex l (j + i * n)) as [s Es]; [rewrite Hl; apply pos_lt; assumption|].
    destruct (Hs j i s Hj Hi Es) as [E1 E2]. exists s, (fun p q => D (nsum j hs + p) (nsum i hs + q)). split; [exact Es|].
    split; [apply Ho; try assumption; destruct lower; exact Hij|]. split; [exact E2|]. split; [exact E1|].
    intros p q Hp Hq. unfold tr. symmetry. apply tri_off. destruct lower; cbn [xorb] in Hij.
    + pose proof (nsum_in hs i j Hij). lia.
    + pose proof (nsum_in hs j i Hij). lia.
Qed.

Lemma htri_keeps (lower aunit : bool) (W : addr -> Prop) m m' (a : hmatrix G) D : htri lower aunit m a D -> keeps W m m' -> disj (inh a) W -> htri lower aunit m' a D.
Proof.
  intros H Hk. induction H as [rc f ds D H1 H2 H3|rc l n ds hs D P1 P2 P3 P4 IH P5]; intros Hd.
  - constructor; auto. intros i j Hi Hj Hok. rewrite (proj2 Hk); [apply H3; assumption|]. intros Hb. eapply (Hd _); [|exact Hb]. eapply inh_f; [reflexivity|]. apply inm_ma; assumption.
  - econstructor; eauto.
    + intros j s Hj Hs. eapply IH; eauto. intros a Ha. apply Hd. eapply inh_son; [reflexivity|eapply nth_error_In; exact Hs|exact Ha].
    + intros i j s Hi Hj Hij Hs. eapply hrep_keeps; [eapply P5; eassumption|exact Hk|]. intros a Ha. apply Hd. eapply inh_son; [reflexivity|eapply nth_error_In; exact Hs|exact Ha].
Qed.

(** ** Substitution *)
Definition solved n U F F' (cs : nat) : Prop := forall p c, p < n -> c < cs -> sum n (fun q => U p q * F' q c)%F = F p c.

Lemma wp_trisolve (lower aunit t : bool) (a : hmatrix G) : forall R W x D F m (Q : unit -> mem K -> Prop),
  htri lower aunit m a D -> xwf X Y x -> xval X Y m x F -> rsize X x = hrows a ->
  disj (inh a) (xin X Y x) -> rdok R W (inh a) -> wrok W (xin X Y x) ->
  aunit = true \/ (forall i, i < hrows a -> D i i <> f0) ->
  (forall F' m', solved (hrows a) (tr t (tripart lower aunit D)) F F' (xcols X Y x) -> xval X Y m' x F' -> keeps (xin X Y x) m m' -> Q tt m') ->
  wp R W (trisolve X lower aunit t a x) m Q.
Proof.
  induction a as [a IH] using hm_rect'. intros R W x D F m Q Ht Hwf Hx Ex Dax Ra Wx Hnz HQ.
  destruct Ht as [rc f ds D H1 H2 H3|rc l n ds hs D P1 P2 P3 P4 P5]; unfold hrows in Ex; cbn [hm_rc] in Ex; cbn [trisolve].
  - rewrite cp_eqb_refl. cbn [passert bind]. rewrite Ex, Nat.eqb_refl. cbn [passert bind].
    assert (Sf : forall a0, inm f a0 -> inh (HM rc rc None (Some f) None 0 0 ds) a0) by (intros; eapply inh_f; [reflexivity|assumption]).
    eapply (x_solve X Y R W lower aunit t f x (csz rc)); eauto; [intros a0 Ha; apply Dax, Sf, Ha|intros a0 Ha; apply Ra, Sf, Ha].
  - rewrite cp_eqb_refl. cbn [passert bind]. rewrite Ex, Nat.eqb_refl. cbn [passert bind]. rewrite Nat.eqb_refl. cbn [passert bind].
    set (N := csz rc) in *. set (U := tr t (tripart lower aunit D)).
    unfold hrows at 1 in HQ. cbn [hm_rc] in HQ. fold N U in HQ. change (hrows _) with N in Hnz, HQ.
    assert (Hrow : forall j s, j < n -> nth_error l j = Some s -> hrows s = hs j).
    { intros j s Hj Hs. apply (P3 j 0 s Hj); [lia|]. rewrite Nat.mul_0_l, Nat.add_0_r. exact Hs. }
    assert (Hlen : n <= length l) by (rewrite P1; destruct n; [lia|cbn; lia]).
    assert (Ex' : rsize X x = nsum n hs) by (rewrite P2; exact Ex).
    assert (Hsub : forall s a0, In s l -> inh s a0 -> inh (HM rc rc None None (Some l) n n ds) a0) by (intros; eapply inh_son; [reflexivity| |]; eassumption).
    assert (Dx : forall s, In s l -> disj (inh s) (xin X Y x)) by (intros s Hs a0 Ha; apply Dax; eapply Hsub; eassumption).
    assert (Rl : forall s, In s l -> rdok R W (inh s)) by (intros s Hs a0 Ha; apply Ra; eapply Hsub; eassumption).
    (* the diagonal block [i] *)
    assert (Hdiag : forall i, i < n -> exists go, sget (K := K) (Some (map (trisolve X lower aunit t) l)) (i + i * n) = Ret go /\
      forall F1 m1 (Q' : unit -> mem K -> Prop), xval X Y m1 x F1 -> keeps (xin X Y x) m m1 ->
      (forall F' m', solved (hs i) (fun p q => U (nsum i hs + p) (nsum i hs + q)) (fun p c => F1 (nsum i hs + p) c) F' (xcols X Y x) ->
         xval X Y m' x (fun p c => if inb (nsum i hs) (hs i) p then F' (p - nsum i hs)%nat c else F1 p c) ->
         keeps (xin X Y x) m1 m' -> Q' tt m') ->
      wp R W (go (xsub X Y x (nsum i hs) (hs i))) m1 Q').
    { intros i Hi.
      destruct (nth_ex l (i + i * n)) as [s Es]; [rewrite P1; apply pos_lt; assumption|].
      exists (trisolve X lower aunit t s). split; [apply (sget_map _ _ _ _ Es)|]. intros F1 m1 Q' Hx1 Hk1 HQ'. destruct (P3 i i s Hi Hi Es) as [Er _].
      pose proof (nsum_in hs i n Hi) as Bi. assert (Is : In s l) by (eapply nth_error_In; exact Es).
      assert (Xin : forall a0, xin X Y (xsub X Y x (nsum i hs) (hs i)) a0 -> xin X Y x a0) by (intros a0 Ha; eapply (x_in X Y); [|exact Ha]; lia).
      eapply (IH l s eq_refl Is) with (D := fun p q => D (nsum i hs + p) (nsum i hs + q)).
      - eapply htri_keeps; [exact (P4 i s Hi Es)|exact Hk1|apply Dx, Is].
      - apply (x_wf X Y); [exact Hwf|lia].
      - apply (x_valsub X Y); [exact Hx1|lia].
      - rewrite (x_size X Y). symmetry. exact Er.
      - intros a0 Ha Hb. apply (Dx s Is a0 Ha), Xin, Hb.
      - apply Rl, Is.
      - intros a0 Ha. apply Wx, Xin, Ha.
      - destruct Hnz as [Hnz|Hnz]; [left; exact Hnz|right]. intros p Hp. apply Hnz. lia.
      - intros F' m' HF Hx' Hk'. rewrite (x_cols X Y), Er in HF. eapply HQ'.
        + intros p c Hp Hc. rewrite <- (HF p c Hp Hc). apply sum_ext. intros q Hq. rewrite (tri_shift lower aunit t D (nsum i hs) p q). reflexivity.
        + eapply (x_back X Y); [exact Hwf|exact Hx1|lia|exact Hx'|exact Hk'].
        + eapply keeps_mono; [exact Xin|exact Hk']. }
    (* one step *)
    assert (Hstep : forall i F1 F' F3 (P P' : nat -> bool), i < n ->
      (forall q, q < N -> P' q = P q || inb (nsum i hs) (hs i) q) -> (forall q, q < N -> P q && inb (nsum i hs) (hs i) q = false) ->
      (forall p q, p < N -> q < N -> P p = true -> inb (nsum i hs) (hs i) q = true -> U p q = f0) ->
      (forall c, c < xcols X Y x -> sinv N U (fun p => F p c) P (fun p => F1 p c)) ->
      solved (hs i) (fun p q => U (nsum i hs + p) (nsum i hs + q)) (fun p c => F1 (nsum i hs + p) c) F' (xcols X Y x) ->
      let F2 := fun p c => if inb (nsum i hs) (hs i) p then F' (p - nsum i hs)%nat c else F1 p c in
      (forall p c, p < N -> c < xcols X Y x -> P' p = true -> F3 p c = F2 p c) ->
      (forall p c, p < N -> c < xcols X Y x -> P' p = false -> F3 p c = F2 p c + (- (1)) * contrib hs U i F2 p c)%F ->
      (forall c, c < xcols X Y x -> sinv N U (fun p => F p c) P' (fun p => F3 p c))).
    { intros i F1 F' F3 P P' Hi E1 E2 HU Hs HF F2 G1 G2 c Hc. pose proof (nsum_in hs i n Hi) as Bi.
      assert (HB : forall p, msk N (inb (nsum i hs) (hs i)) (fun q => U p q * F2 q c)%F = contrib hs U i F2 p c).
      { intros p. unfold contrib. apply (msk_box L N _ (nsum i hs) (hs i) (fun q => U p q * F2 q c)%F); [lia|reflexivity]. }
      eapply (sinv_step L N U _ P (inb (nsum i hs) (hs i)) P' _ (fun p => F2 p c)); [exact E1|exact E2|exact HU|exact (Hs c Hc)| | | |]; cbv beta.
      - intros p Hp E. rewrite HB. unfold inb in E. apply andb_prop in E. destruct E as [A1 A2]. apply Nat.leb_le in A1. apply Nat.ltb_lt in A2.
        assert (A3 : p - nsum i hs < hs i) by lia. pose proof (HF (p - nsum i hs)%nat c A3 Hc) as HFp. cbv beta in HFp. replace (nsum i hs + (p - nsum i hs)) with p in HFp by lia.
        rewrite <- HFp. unfold contrib. apply sum_ext. intros q Hq. unfold F2, inb. rewrite (proj2 (Nat.leb_le _ _)), (proj2 (Nat.ltb_lt _ _)) by lia. cbn [andb].
        replace (nsum i hs + q - nsum i hs) with q by lia. reflexivity.
      - intros p Hp E. unfold F2. rewrite E. reflexivity.
      - intros p Hp E. apply G1; assumption.
      - intros p Hp E. rewrite HB, G2 by assumption. ring. }
    destruct (xorb lower t) eqn:Ext.
    + apply wp_bind. apply (wp_forS (fun i roff m1 => roff = nsum i hs /\ exists F1, xval X Y m1 x F1 /\ keeps (xin X Y x) m m1 /\
        (forall c, c < xcols X Y x -> sinv N U (fun p => F p c) (fun p => p <? nsum i hs) (fun p => F1 p c)))).
      * split; [reflexivity|]. exists F. split; [exact Hx|]. split; [apply keeps_refl|]. intros c Hc p Hp; cbv beta. cbn [nsum Nat.ltb Nat.leb].
        change (p <? 0) with false. rewrite (msk_none L) by reflexivity. ring.
      * intros i roff m1 [_ Hi] (-> & F1 & Hx1 & Hk1 & Hs). cbn [Nat.add] in Hi. pose proof (nsum_in hs i n Hi) as Bi.
        destruct (nth_ex l i) as [si Ei]; [lia|]. rewrite (sget_some _ _ _ Ei). cbn [bind]. rewrite (Hrow i si Hi Ei).
        destruct (Hdiag i Hi) as (go & Eg & Hgo). apply wp_bind. apply (x_sub X Y); [lia|]. rewrite Eg. cbn [bind].
        apply wp_bind. eapply Hgo; [exact Hx1|exact Hk1|]. intros F' m2 HF Hx2 Hk2. apply wp_bind.
        eapply (wp_updafter R W (- (1))%F t l n hs U i x m Hi Hrow Hlen Ex' Hwf Dx Rl Wx); [|exact Hx2|eapply keeps_trans; eassumption|].
        { intros j Hj. eapply tri_isblk; try eassumption; [lia|]. rewrite Ext. lia. }
        intros m3 Hx3 Hk3. rewrite P2. fold N. rewrite Nat.eqb_refl. cbn [passert bind]. apply wp_bind. apply (x_done X Y). cbn [wp].
        split; [reflexivity|]. eexists. split; [exact Hx3|]. split; [eapply keeps_trans; [|exact Hk3]; eapply keeps_trans; eassumption|].
        eapply (Hstep i F1 F' _ (fun p => p <? nsum i hs)); [exact Hi| | | |exact Hs|exact HF| |].
        -- intros q Hq. cbn [nsum]. bol.
        -- intros q Hq. apply Bool.not_true_iff_false. bolr. lia.
        -- intros p q Hp Hq A1 A2. apply tri_0. rewrite Ext. revert A1 A2. bolr. lia.
        -- intros p c Hp Hc A1. cbv beta. cbn [nsum] in A1. apply Nat.ltb_lt in A1. rewrite (proj2 (Nat.leb_gt _ _)) by lia. reflexivity.
        -- intros p c Hp Hc A1. cbv beta. cbn [nsum] in A1. apply Nat.ltb_ge in A1. rewrite (proj2 (Nat.leb_le _ _)) by lia. reflexivity.
      * intros roff m1 (-> & F1 & Hx1 & Hk1 & Hs). cbn [Nat.add] in *. rewrite P2 in *. fold N in Hs |- *. wstep. apply (HQ F1); [|exact Hx1|exact Hk1].
        intros p c Hp Hc. specialize (Hs c Hc p Hp). cbv beta in Hs. rewrite (proj2 (Nat.ltb_lt p N)) in Hs by exact Hp.
        rewrite <- Hs. symmetry. apply msk_all. intros q Hq. apply Nat.ltb_lt, Hq.
    + apply wp_bind. apply (wp_forS (fun k roff m1 => roff = nsum (n - k) hs /\ exists F1, xval X Y m1 x F1 /\ keeps (xin X Y x) m m1 /\
        (forall c, c < xcols X Y x -> sinv N U (fun p => F p c) (fun p => nsum (n - k) hs <=? p) (fun p => F1 p c)))).
      * rewrite Nat.sub_0_r. split; [symmetry; exact P2|]. exists F. split; [exact Hx|]. split; [apply keeps_refl|]. intros c Hc p Hp; cbv beta.
        assert (Z : forall q, q < N -> (nsum n hs <=? q) = false) by (intros q Hq; apply Nat.leb_gt; lia).
        rewrite (Z p Hp). rewrite (msk_none L) by exact Z. ring.
      * intros k roff m1 [_ Hk] (-> & F1 & Hx1 & Hk1 & Hs). cbv zeta. cbn [Nat.add] in Hk. remember (n - 1 - k) as i eqn:Eik. assert (Hi : i < n) by lia.
        replace (n - k) with (S i) in * by lia. replace (n - S k) with i by lia. pose proof (nsum_in hs i n Hi) as Bi.
        destruct (nth_ex l i) as [si Ei]; [lia|]. rewrite (sget_some _ _ _ Ei). cbn [bind]. rewrite (Hrow i si Hi Ei).
        unfold psub. cbn [nsum] in *. rewrite (proj2 (Nat.leb_le (hs i) (nsum i hs + hs i))) by lia. cbn [bind]. rewrite Nat.add_sub.
        destruct (Hdiag i Hi) as (go & Eg & Hgo). apply wp_bind. apply (x_sub X Y); [lia|]. rewrite Eg. cbn [bind].
        apply wp_bind. eapply Hgo; [exact Hx1|exact Hk1|]. intros F' m2 HF Hx2 Hk2. apply wp_bind.
        eapply (wp_updbefore R W (- (1))%F t l n hs U i x m Hi Hrow Hlen Ex' Hwf Dx Rl Wx); [|exact Hx2|eapply keeps_trans; eassumption|].
        { intros j Hj. eapply tri_isblk; try eassumption; [lia|]. rewrite Ext. lia. }
        intros m3 Hx3 Hk3. cbn [Nat.eqb passert bind]. change (0 =? 0) with true. cbn [passert bind]. apply wp_bind. apply (x_done X Y). cbn [wp].
        split; [reflexivity|]. eexists. split; [exact Hx3|]. split; [eapply keeps_trans; [|exact Hk3]; eapply keeps_trans; eassumption|].
        eapply (Hstep i F1 F' _ (fun p => nsum i hs + hs i <=? p)); [exact Hi| | | |exact Hs|exact HF| |].
        -- intros q Hq. bol.
        -- intros q Hq. apply Bool.not_true_iff_false. bolr. lia.
        -- intros p q Hp Hq A1 A2. apply tri_0. rewrite Ext. revert A1 A2. bolr. lia.
        -- intros p c Hp Hc A1. cbv beta. apply Nat.leb_le in A1. rewrite (proj2 (Nat.ltb_ge _ _)) by lia. reflexivity.
        -- intros p c Hp Hc A1. cbv beta. apply Nat.leb_gt in A1. rewrite (proj2 (Nat.ltb_lt _ _)) by lia. reflexivity.
      * intros roff m1 (-> & F1 & Hx1 & Hk1 & Hs). cbn [Nat.add] in *. rewrite Nat.sub_diag in *. cbn [nsum] in *. wstep. apply (HQ F1); [|exact Hx1|exact Hk1].
        intros p c Hp Hc. specialize (Hs c Hc p Hp). cbv beta in Hs. rewrite (proj2 (Nat.leb_le 0 p)) in Hs by lia.
        rewrite <- Hs. symmetry. apply msk_all. intros q Hq. apply Nat.leb_le. lia.
Qed.
(** ** Products *)
Lemma wp_trieval (lower aunit t : bool) (a : hmatrix G) : forall R W x D F m (Q : unit -> mem K -> Prop),
  htri lower aunit m a D -> xwf X Y x -> xval X Y m x F -> rsize X x = hrows a ->
  disj (inh a) (xin X Y x) -> rdok R W (inh a) -> wrok W (xin X Y x) ->
  (forall m', xval X Y m' x (fun p c => sum (hrows a) (fun q => tr t (tripart lower aunit D) p q * F q c)%F) -> keeps (xin X Y x) m m' -> Q tt m') ->
  wp R W (trieval X lower aunit t a x) m Q.
Proof.
  induction a as [a IH] using hm_rect'. intros R W x D F m Q Ht Hwf Hx Ex Dax Ra Wx HQ.
  destruct Ht as [rc f ds D H1 H2 H3|rc l n ds hs D P1 P2 P3 P4 P5]; unfold hrows in Ex; cbn [hm_rc] in Ex; cbn [trieval].
  - rewrite cp_eqb_refl. cbn [passert bind]. rewrite Ex, Nat.eqb_refl. cbn [passert bind].
    assert (Sf : forall a0, inm f a0 -> inh (HM rc rc None (Some f) None 0 0 ds) a0) by (intros; eapply inh_f; [reflexivity|assumption]).
    eapply (x_eval X Y R W lower aunit t f x (csz rc)); eauto; [intros a0 Ha; apply Dax, Sf, Ha|intros a0 Ha; apply Ra, Sf, Ha].
  - rewrite cp_eqb_refl. cbn [passert bind]. rewrite Ex, Nat.eqb_refl. cbn [passert bind]. rewrite Nat.eqb_refl. cbn [passert bind].
    set (N := csz rc) in *. set (U := tr t (tripart lower aunit D)).
    unfold hrows at 1 in HQ. cbn [hm_rc] in HQ. fold N U in HQ. change (hrows _) with N in HQ.
    assert (Hrow : forall j s, j < n -> nth_error l j = Some s -> hrows s = hs j).
    { intros j s Hj Hs. apply (P3 j 0 s Hj); [lia|]. rewrite Nat.mul_0_l, Nat.add_0_r. exact Hs. }
    assert (Hlen : n <= length l) by (rewrite P1; destruct n; [lia|cbn; lia]).
    assert (Ex' : rsize X x = nsum n hs) by (rewrite P2; exact Ex).
    assert (Hsub : forall s a0, In s l -> inh s a0 -> inh (HM rc rc None None (Some l) n n ds) a0) by (intros; eapply inh_son; [reflexivity| |]; eassumption).
    assert (Dx : forall s, In s l -> disj (inh s) (xin X Y x)) by (intros s Hs a0 Ha; apply Dax; eapply Hsub; eassumption).
    assert (Rl : forall s, In s l -> rdok R W (inh s)) by (intros s Hs a0 Ha; apply Ra; eapply Hsub; eassumption).
    (* the diagonal block [i] *)
    assert (Hdiag : forall i, i < n -> exists go, sget (K := K) (Some (map (trieval X lower aunit t) l)) (i + i * n) = Ret go /\
      forall F1 m1 (Q' : unit -> mem K -> Prop), xval X Y m1 x F1 -> keeps (xin X Y x) m m1 ->
      (forall m', xval X Y m' x (fun p c => if inb (nsum i hs) (hs i) p then contrib hs U i F1 p c else F1 p c) ->
         keeps (xin X Y x) m1 m' -> Q' tt m') ->
      wp R W (go (xsub X Y x (nsum i hs) (hs i))) m1 Q').
    { intros i Hi.
      destruct (nth_ex l (i + i * n)) as [s Es]; [rewrite P1; apply pos_lt; assumption|].
      exists (trieval X lower aunit t s). split; [apply (sget_map _ _ _ _ Es)|]. intros F1 m1 Q' Hx1 Hk1 HQ'. destruct (P3 i i s Hi Hi Es) as [Er _].
      pose proof (nsum_in hs i n Hi) as Bi. assert (Is : In s l) by (eapply nth_error_In; exact Es).
      assert (Xin : forall a0, xin X Y (xsub X Y x (nsum i hs) (hs i)) a0 -> xin X Y x a0) by (intros a0 Ha; eapply (x_in X Y); [|exact Ha]; lia).
      eapply (IH l s eq_refl Is) with (D := fun p q => D (nsum i hs + p) (nsum i hs + q)).
      - eapply htri_keeps; [exact (P4 i s Hi Es)|exact Hk1|apply Dx, Is].
      - apply (x_wf X Y); [exact Hwf|lia].
      - apply (x_valsub X Y); [exact Hx1|lia].
      - rewrite (x_size X Y). symmetry. exact Er.
      - intros a0 Ha Hb. apply (Dx s Is a0 Ha), Xin, Hb.
      - apply Rl, Is.
      - intros a0 Ha. apply Wx, Xin, Ha.
      - intros m' Hx' Hk'. rewrite Er in Hx'. eapply HQ'.
        + eapply (x_ext X Y); [eapply (x_back X Y m1 m' x (nsum i hs) (hs i)); [exact Hwf|exact Hx1|lia|exact Hx'|exact Hk']|]. intros p c Hp Hc; cbv beta.
          destruct (inb (nsum i hs) (hs i) p) eqn:E; [|reflexivity]. unfold inb in E. apply andb_prop in E. destruct E as [A1 A2]. apply Nat.leb_le in A1. apply Nat.ltb_lt in A2.
          unfold contrib. apply sum_ext. intros q Hq. rewrite (tri_shift lower aunit t D (nsum i hs)). replace (nsum i hs + (p - nsum i hs)) with p by lia. reflexivity.
        + eapply keeps_mono; [exact Xin|exact Hk']. }
    (* one step *)
    assert (Hstep : forall i F1 F2 (P P' : nat -> bool), i < n ->
      (forall q, q < N -> P' q = P q || inb (nsum i hs) (hs i) q) -> (forall q, q < N -> P q && inb (nsum i hs) (hs i) q = false) ->
      (forall p q, p < N -> q < N -> inb (nsum i hs) (hs i) p = true -> P q = true -> U p q = f0) ->
      (forall c, c < xcols X Y x -> einv N U (fun p => F p c) P (fun p => F1 p c)) ->
      (forall p c, p < N -> c < xcols X Y x -> P p = true -> F2 p c = F1 p c + 1 * contrib hs U i F1 p c)%F ->
      (forall p c, p < N -> c < xcols X Y x -> P p = false -> F2 p c = F1 p c) ->
      (forall c, c < xcols X Y x -> einv N U (fun p => F p c) P' (fun p => if inb (nsum i hs) (hs i) p then contrib hs U i F2 p c else F2 p c))).
    { intros i F1 F2 P P' Hi E1 E2 HU Hs G1 G2 c Hc. pose proof (nsum_in hs i n Hi) as Bi.
      assert (HB : forall F0 p, msk N (inb (nsum i hs) (hs i)) (fun q => U p q * F0 q c)%F = contrib hs U i F0 p c).
      { intros F0 p. unfold contrib. apply (msk_box L N _ (nsum i hs) (hs i) (fun q => U p q * F0 q c)%F); [lia|reflexivity]. }
      eapply (einv_step L N U _ P (inb (nsum i hs) (hs i)) P' _ (fun p => F2 p c)); [exact E1|exact E2|exact HU|exact (Hs c Hc)| | | |]; cbv beta.
      - intros p Hp E. rewrite HB, G1 by assumption. ring.
      - intros p Hp E. apply G2; assumption.
      - intros p Hp E. rewrite HB, E. reflexivity.
      - intros p Hp E. rewrite E. reflexivity. }
    destruct (xorb lower t) eqn:Ext.
    + apply wp_bind. apply (wp_forS (fun k roff m1 => roff = nsum (n - k) hs /\ exists F1, xval X Y m1 x F1 /\ keeps (xin X Y x) m m1 /\
        (forall c, c < xcols X Y x -> einv N U (fun p => F p c) (fun p => nsum (n - k) hs <=? p) (fun p => F1 p c)))).
      * rewrite Nat.sub_0_r. split; [symmetry; exact P2|]. exists F. split; [exact Hx|]. split; [apply keeps_refl|]. intros c Hc p Hp; cbv beta.
        rewrite (proj2 (Nat.leb_gt (nsum n hs) p)) by lia. reflexivity.
      * intros k roff m1 [_ Hk] (-> & F1 & Hx1 & Hk1 & Hs). cbv zeta. cbn [Nat.add] in Hk. remember (n - 1 - k) as i eqn:Eik. assert (Hi : i < n) by lia.
        replace (n - k) with (S i) in * by lia. replace (n - S k) with i by lia. pose proof (nsum_in hs i n Hi) as Bi.
        destruct (nth_ex l i) as [si Ei]; [lia|]. rewrite (sget_some _ _ _ Ei). cbn [bind]. rewrite (Hrow i si Hi Ei).
        unfold psub. cbn [nsum] in *. rewrite (proj2 (Nat.leb_le (hs i) (nsum i hs + hs i))) by lia. cbn [bind]. rewrite Nat.add_sub.
        destruct (Hdiag i Hi) as (go & Eg & Hgo). apply wp_bind. apply (x_sub X Y); [lia|]. apply wp_bind.
        eapply (wp_updafter R W f1 t l n hs U i x m Hi Hrow Hlen Ex' Hwf Dx Rl Wx); [|exact Hx1|exact Hk1|].
        { intros j Hj. eapply tri_isblk; try eassumption; [lia|]. rewrite Ext. lia. }
        intros m2 Hx2 Hk2. rewrite P2. fold N. rewrite Nat.eqb_refl. cbn [passert bind]. rewrite Eg. cbn [bind].
        apply wp_bind. eapply Hgo; [exact Hx2|eapply keeps_trans; eassumption|]. intros m3 Hx3 Hk3. apply wp_bind. apply (x_done X Y). cbn [wp].
        split; [reflexivity|]. eexists. split; [exact Hx3|]. split; [eapply keeps_trans; [|exact Hk3]; eapply keeps_trans; eassumption|].
        eapply (Hstep i F1 _ (fun p => nsum i hs + hs i <=? p)); [exact Hi| | | |exact Hs| |].
        -- intros q Hq. bol.
        -- intros q Hq. apply Bool.not_true_iff_false. bolr. lia.
        -- intros p q Hp Hq A1 A2. apply tri_0. rewrite Ext. revert A1 A2. bolr. lia.
        -- intros p c Hp Hc A1. cbv beta. rewrite A1. reflexivity.
        -- intros p c Hp Hc A1. cbv beta. rewrite A1. reflexivity.
      * intros roff m1 (-> & F1 & Hx1 & Hk1 & Hs). cbn [Nat.add] in *. rewrite Nat.sub_diag in *. cbn [nsum] in *. wstep. apply HQ; [|exact Hk1].
        eapply (x_ext X Y); [exact Hx1|]. intros p c Hp Hc; cbv beta. rewrite Ex in Hp. specialize (Hs c Hc p Hp). cbv beta in Hs. rewrite (proj2 (Nat.leb_le 0 p)) in Hs by lia.
        rewrite Hs. symmetry. apply msk_all. intros q Hq. apply Nat.leb_le. lia.
    + apply wp_bind. apply (wp_forS (fun i roff m1 => roff = nsum i hs /\ exists F1, xval X Y m1 x F1 /\ keeps (xin X Y x) m m1 /\
        (forall c, c < xcols X Y x -> einv N U (fun p => F p c) (fun p => p <? nsum i hs) (fun p => F1 p c)))).
      * split; [reflexivity|]. exists F. split; [exact Hx|]. split; [apply keeps_refl|]. intros c Hc p Hp; cbv beta. reflexivity.
      * intros i roff m1 [_ Hi] (-> & F1 & Hx1 & Hk1 & Hs). cbn [Nat.add] in Hi. pose proof (nsum_in hs i n Hi) as Bi.
        destruct (nth_ex l i) as [si Ei]; [lia|]. rewrite (sget_some _ _ _ Ei). cbn [bind]. rewrite (Hrow i si Hi Ei).
        destruct (Hdiag i Hi) as (go & Eg & Hgo). apply wp_bind. apply (x_sub X Y); [lia|]. apply wp_bind.
        eapply (wp_updbefore R W f1 t l n hs U i x m Hi Hrow Hlen Ex' Hwf Dx Rl Wx); [|exact Hx1|exact Hk1|].
        { intros j Hj. eapply tri_isblk; try eassumption; [lia|]. rewrite Ext. lia. }
        intros m2 Hx2 Hk2. change (0 =? 0) with true. cbn [passert bind]. rewrite Eg. cbn [bind].
        apply wp_bind. eapply Hgo; [exact Hx2|eapply keeps_trans; eassumption|]. intros m3 Hx3 Hk3. apply wp_bind. apply (x_done X Y). cbn [wp].
        split; [reflexivity|]. eexists. split; [exact Hx3|]. split; [eapply keeps_trans; [|exact Hk3]; eapply keeps_trans; eassumption|].
        eapply (Hstep i F1 _ (fun p => p <? nsum i hs)); [exact Hi| | | |exact Hs| |].
        -- intros q Hq. cbn [nsum]. bol.
        -- intros q Hq. apply Bool.not_true_iff_false. bolr. lia.
        -- intros p q Hp Hq A1 A2. apply tri_0. rewrite Ext. revert A1 A2. bolr. lia.
        -- intros p c Hp Hc A1. cbv beta. rewrite A1. reflexivity.
        -- intros p c Hp Hc A1. cbv beta. rewrite A1. reflexivity.
      * intros roff m1 (-> & F1 & Hx1 & Hk1 & Hs). cbn [Nat.add] in *. rewrite P2 in *. fold N in Hs |- *. wstep. apply HQ; [|exact Hk1].
        eapply (x_ext X Y); [exact Hx1|]. intros p c Hp Hc; cbv beta. rewrite Ex in Hp. specialize (Hs c Hc p Hp). cbv beta in Hs. rewrite (proj2 (Nat.ltb_lt p N)) in Hs by exact Hp.
        rewrite Hs. symmetry. apply msk_all. intros q Hq. apply Nat.ltb_lt, Hq.
Qed.
End HaP2.
