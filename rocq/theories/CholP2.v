(** * The Cholesky and LDL^T decompositions and their solvers *)
From Coq Require Import Arith NArith Lia List Bool Ring.
From Verif Require Import Fld Prog View Spec Loop Avector AvectorP Amatrix AmatrixP Factor FactorSpec Line
  FactorP FactorP2 FactorP3 FactorP4 Lr LrP LrP2 Chol CholSpec CholP.

Section CHOL.
Context {K : fops} (L : field_laws K) (O : rops K) (H : rlaws O).
Add Ring KringC2 : (rl_ring K (fl_ring K L)).
Implicit Types (m : mem K) (R W : addr -> Prop) (A : mat).
Notation low := (intri true false).
Notation lo := (tripart true false).
Notation lu := (tripart true true).
Notation one := (fun _ : nat => f1).

Lemma lowtri_tri u (F : nat -> nat -> K) : lowtri (tripart true u F).
Proof. intros i k Hk. unfold tripart. bsplit; try reflexivity; lia. Qed.

Lemma pos_n0 (x : K) : nonpos O x = false -> x <> f0.
Proof. intros Hx ->. rewrite (rw_0 O H) in Hx. discriminate. Qed.

Lemma sqrt_n0 (x : K) : fconj x = x -> nonpos O x = false -> rsqrt O x <> f0.
Proof.
  intros Hr Hx E. apply (pos_n0 x Hx). destruct (rw_sqrt O H x Hr Hx) as [Es _]. rewrite <- Es, E. ring.
Qed.

Lemma one_real : fconj (@f1 K) = f1. Proof. apply (fconj_1 (fl_ring K L)). Qed.

(** ** Cholesky *)
Definition cholpost (n : nat) (f F : nat -> nat -> K) (r : nat) : Prop :=
  r = 0 /\ sinv n n (lo F) one F f /\ (forall i, i < n -> nonpos O (F i i) = false /\ fconj (F i i) = F i i) \/
  exists p, r = p + 1 /\ p < n /\ sinv (p + 1) p (lo F) one F f /\ nonpos O (F p p) = true /\
    fconj (F p p) = F p p /\ (forall i, i < p -> nonpos O (F i i) = false /\ fconj (F i i) = F i i).

Definition setd (F : nat -> nat -> K) (i : nat) (s : K) (p q : nat) : K :=
  if (p =? i) && (q =? i) then s else F p q.

Lemma chol_inv n i (F f : nat -> nat -> K) s : sinv n i (lo F) one F f -> i < n -> (s * s = F i i)%F -> fconj s = s -> s <> f0 ->
  let G := symG (setd F i s) i (f1 / s)%F (fun x y => x * fconj y)%F in
  sinv n (S i) (lo G) one G f.
Proof.
  intros HI Hi Hs Hc H0 G. eapply (sinv_step L); [exact HI| |reflexivity|apply lowtri_tri|exact Hi|].
  - intros p k Hp Hk. unfold tripart, G, symG, setd. bsplit; try reflexivity; lia.
  - intros p j Hp Hj Hij.
    assert (Ediv : forall a, (a * (f1 / s) * s = a)%F).
    { intros a. transitivity (s * (a * (f1 / s)))%F; [ring|]. apply (inv_mul L), H0. }
    destruct (Nat.eq_dec j i) as [->|Hji].
    + destruct (Nat.eq_dec p i) as [->|Hpi].
      * unfold tripart, G, symG, setd. bsplit; try lia. rewrite Hc. rewrite <- Hs. ring.
      * unfold tripart, G, symG, setd. bsplit; try lia. rewrite Hc.
        transitivity (F p i * (f1 / s) * s)%F; [symmetry; apply Ediv|ring].
    + unfold tripart, G, symG, setd. bsplit; try lia; ring.
Qed.

Lemma wp_chol_loop R W A n f cnt : forall i F m (Q : nat -> mem K -> Prop),
  mwf A -> pval m A low F -> wrok W (inp A low) -> mrows A = n -> mcols A = n -> i + cnt + 1 = n ->
  (forall j, j < n -> fconj (f j j) = f j j) ->
  sinv n i (lo F) one F f -> (forall k, k < i -> nonpos O (F k k) = false /\ fconj (F k k) = F k k) ->
  (forall r (F' : nat -> nat -> K) m', cholpost n f F' r -> pval m' A low F' ->
     keeps (inp A low) m m' -> Q r m') ->
  wp R W (chol_loop O A n i cnt) m Q.
Proof.
  induction cnt as [|cnt IH]; intros i F m Q Hwf HF Hw Hr Hc Hn Hre HI HD HQ; cbn [chol_loop].
  - eapply wp_pld; [exact HF|exact Hw|lia|lia|left; auto|].
    assert (HR : fconj (F i i) = F i i).
    { eapply (sinv_real L); [exact HI|exact Hre|intros; apply one_real|lia|lia]. }
    rewrite (rw_real O H _ HR), (rw_re O H _ HR). cbn [orb].
    destruct (nonpos O (F i i)) eqn:E.
    + cbn [wp]. eapply HQ; [|exact HF|apply keeps_refl]. right. exists i.
      split; [reflexivity|]. split; [lia|].
      split; [intros p q Hp Hq; apply HI; lia|]. split; [exact E|]. split; [exact HR|]. intros k Hk. apply HD, Hk.
    + destruct (rw_sqrt O H _ HR E) as [Es [Ec Ep]]. apply wp_bind.
      eapply wp_pst; [exact HF|exact Hw|lia|lia|left; auto|].
      intros m1 Hwr. cbn [wp].
      assert (HF1 : pval m1 A low (setd F i (rsqrt O (F i i)))).
      { eapply pval_fupd_step; [exact Hwf|exact HF|exact Hwr|lia|]. reflexivity. }
      eapply (HQ 0); [|exact HF1|].
      2:{ eapply wrote_keeps; [apply keeps_refl|exact Hwr|]. apply inp_ma; [lia|lia|left; auto]. }
      left. split; [reflexivity|]. split.
      * intros p q Hp Hq.
        pose proof (chol_inv n i F f _ HI ltac:(lia) Es Ec (sqrt_n0 _ HR E)) as HI'. cbv zeta in HI'.
        replace n with (S i) by lia. replace n with (S i) in HI' by lia.
        rewrite (HI' p q) by lia. f_equal.
        -- apply sum_ext. intros k Hk. unfold tripart, symG, setd. bsplit; try reflexivity; lia.
        -- bsplit; try reflexivity; lia.
      * intros k Hk. unfold setd. destruct (Nat.eqb_spec k i) as [->|Ne]; cbn [andb].
        -- split; [exact Ep|exact Ec].
        -- apply HD. lia.
  - eapply wp_pld; [exact HF|exact Hw|lia|lia|left; auto|].
    assert (HR : fconj (F i i) = F i i).
    { eapply (sinv_real L); [exact HI|exact Hre|intros; apply one_real|lia|lia]. }
    rewrite (rw_real O H _ HR), (rw_re O H _ HR). cbn [orb].
    destruct (nonpos O (F i i)) eqn:E.
    + cbn [wp]. eapply HQ; [|exact HF|apply keeps_refl]. right. exists i.
      split; [reflexivity|]. split; [lia|].
      split; [intros p q Hp Hq; apply HI; lia|]. split; [exact E|]. split; [exact HR|]. intros k Hk. apply HD, Hk.
    + destruct (rw_sqrt O H _ HR E) as [Es [Ec Ep]]. apply wp_bind. unfold chol_step. apply wp_bind.
      eapply wp_pst; [exact HF|exact Hw|lia|lia|left; auto|].
      intros m1 Hwr.
      assert (HF1 : pval m1 A low (setd F i (rsqrt O (F i i)))).
      { eapply pval_fupd_step; [exact Hwf|exact HF|exact Hwr|lia|]. reflexivity. }
      assert (Hk1 : keeps (inp A low) m m1).
      { eapply wrote_keeps; [apply keeps_refl|exact Hwr|]. apply inp_ma; [lia|lia|left; auto]. }
      eapply wp_pld; [exact HF1|exact Hw|lia|lia|left; auto|].
      assert (E1 : setd F i (rsqrt O (F i i)) i i = rsqrt O (F i i)) by (unfold setd; rewrite Nat.eqb_refl; reflexivity).
      rewrite E1. cbv zeta.
      apply (wp_sym_step R W A n i (f1 / rsqrt O (F i i))%F (fun x y => x * fconj y)%F (setd F i (rsqrt O (F i i))) m1); [exact Hwf|exact HF1|exact Hw|exact Hr|exact Hc|lia|].
      intros m2 HF2 Hk2. rewrite Nat.add_1_r.
      eapply IH; [exact Hwf|exact HF2|exact Hw|exact Hr|exact Hc|lia|exact Hre| | |].
      * apply chol_inv; [exact HI|lia|exact Es|exact Ec|apply sqrt_n0; assumption].
      * intros k Hk. unfold symG, setd. 
        destruct (Nat.eq_dec k i) as [->|Ne].
        -- bsplit; try lia. split; [exact Ep|exact Ec].
        -- bsplit; try lia; apply HD; lia.
      * intros r F' m3 HP Hm3 Hk3. eapply HQ; [exact HP|exact Hm3|].
        do 2 (eapply keeps_trans; [eassumption|]). exact Hk3.
Qed.

Lemma wp_choldecomp_amatrix R W A f m (Q : nat -> mem K -> Prop) :
  mwf A -> pval m A low f -> wrok W (inp A low) -> mrows A = mcols A -> 0 < mrows A ->
  (N.of_nat (mrows A) < 2 ^ 32)%N -> (forall j, j < mrows A -> fconj (f j j) = f j j) ->
  (forall r (F : nat -> nat -> K) m', cholpost (mrows A) f F r -> pval m' A low F ->
     keeps (inp A low) m m' -> Q r m') ->
  wp R W (choldecomp_amatrix O A) m Q.
Proof.
  intros Hwf HF Hw Hc H0 H32 Hre HQ. unfold choldecomp_amatrix. wstep. rewrite (upred_S _ H0 H32).
  eapply (wp_chol_loop R W A (mrows A) f); eauto; [lia|apply (sinv_0 L)|intros; lia].
Qed.

(** Consequences for the given matrix. *)
Lemma cholpost_0 n f F : cholpost n f F 0 ->
  (forall i j, i < n -> j < n -> mmul n (lo F) (tr true (lo F)) i j = herm f i j) /\
  (forall i, i < n -> nonpos O (F i i) = false /\ fconj (F i i) = F i i) /\ posdef O n (herm f).
Proof.
  intros [[_ [HI HD]]|[p [E _]]]; [|lia]. split; [|split; [exact HD|]].
  - intros i j Hi Hj. rewrite (sinv_herm L n n (lo F) one F f HI) by (auto; intros; apply one_real).
    destruct (Nat.leb_spec n i); [lia|]. cbn [andb]. unfold mmul. cbn [tr]. cbv beta.
    transitivity (sum n (fun k => lo F i k * f1 * fconj (lo F j k))%F); [|ring].
    apply sum_ext. intros k Hk. ring.
  - intros v [i [Hi Hv]]. destruct (nonpos O (quad n (herm f) v)) eqn:E; [|reflexivity].
    exfalso. apply Hv.
    rewrite (sinv_quad L n (lo F) one F f HI) in E by (intros; apply one_real).
    apply (adjv_inj L n (lo F) v (lowtri_tri false F)); [intros; unfold tripart; rewrite Nat.eqb_refl; apply pos_n0, HD; assumption| |exact Hi].
    apply (rw_sumsq O H). etransitivity; [|exact E]. f_equal. unfold dot. apply sum_ext. intros k Hk. cbv beta. ring.
Qed.

Lemma cholpost_S n f F r : cholpost n f F r -> 0 < r ->
  r <= n /\ ~ posdef O r (herm f) /\ forall j, j < r -> posdef O j (herm f).
Proof.
  intros [[-> _]|[p [-> [Hp [HI [HN [HR HD]]]]]]] Hr; [lia|].
  rewrite Nat.add_1_r in *.
  split; [lia|]. split.
  - intros HP.
    destruct (sinv_stop L p (lo F) one F f HI (lowtri_tri false F)) as [v [Hv1 Hv]].
    { intros; apply one_real. }
    { exact HR. }
    { intros i Hi. unfold tripart. rewrite Nat.eqb_refl. apply pos_n0, HD, Hi. }
    specialize (HP v).
    assert (E : quad (S p) (herm f) v = F p p).
    { unfold quad, dot. rewrite (sum_ext (S p) _ (fun i => if i =? p then F p p else f0)).
      - rewrite (sum_single (fl_ring K L) (S p) p); [rewrite Nat.eqb_refl; reflexivity|lia|].
        intros i Hi Hne. destruct (Nat.eqb_spec i p); [contradiction|reflexivity].
      - intros i Hi. rewrite Hv by exact Hi. destruct (Nat.eqb_spec i p) as [->|_]; [|ring].
        rewrite Hv1, one_real. ring. }
    rewrite E, HN in HP. assert (true = false); [|discriminate]. apply HP.
    exists p. split; [lia|]. rewrite Hv1. apply (fl_1_neq_0 K L).
  - intros j Hj. eapply (cholpost_0 j f F). left. split; [reflexivity|].
    pose proof (sinv_lead L (S p) p j (lo F) one F f HI (lowtri_tri false F) ltac:(lia) ltac:(lia)) as HJ.
    split; [exact HJ|]. intros i Hi. apply HD; lia.
Qed.

(** ** LDL^T *)
Notation dg F := (fun k : nat => F k k).
Definition ldltpost (n : nat) (f F : nat -> nat -> K) (r : nat) : Prop :=
  r = 0 /\ sinv n n (lu F) (dg F) F f /\ (forall i, i < n -> F i i <> f0 /\ fconj (F i i) = F i i) \/
  exists p, r = p + 1 /\ p < n /\ sinv (p + 1) p (lu F) (dg F) F f /\ F p p = f0 /\
    (forall i, i < p -> F i i <> f0 /\ fconj (F i i) = F i i).

Lemma ldlt_inv n i (F f : nat -> nat -> K) : sinv n i (lu F) (dg F) F f -> i < n -> fconj (F i i) = F i i -> F i i <> f0 ->
  let G := symG F i (f1 / F i i)%F (fun x y => F i i * x * fconj y)%F in
  sinv n (S i) (lu G) (dg G) G f.
Proof.
  intros HI Hi Hc H0 G. eapply (sinv_step L); [exact HI| | |apply lowtri_tri|exact Hi|].
  - intros p k Hp Hk. unfold tripart, G, symG. bsplit; try reflexivity; lia.
  - intros k Hk. unfold G, symG. bsplit; try reflexivity; lia.
  - intros p j Hp Hj Hij.
    assert (Ediv : forall a, (a * (f1 / F i i) * F i i = a)%F).
    { intros a. transitivity (F i i * (a * (f1 / F i i)))%F; [ring|]. apply (inv_mul L), H0. }
    assert (EG : G i i = F i i) by (unfold G, symG; bsplit; try reflexivity; lia).
    rewrite EG.
    destruct (Nat.eq_dec j i) as [->|Hji].
    + destruct (Nat.eq_dec p i) as [->|Hpi].
      * unfold tripart. bsplit; try lia. rewrite one_real. ring.
      * unfold tripart, G, symG. bsplit; try lia. rewrite one_real.
        transitivity (F p i * (f1 / F i i) * F i i)%F; [symmetry; apply Ediv|ring].
    + unfold tripart, G, symG. bsplit; try lia; ring.
Qed.

Lemma wp_ldlt_loop R W A n f cnt : forall i (F : nat -> nat -> K) m (Q : nat -> mem K -> Prop),
  mwf A -> pval m A low F -> wrok W (inp A low) -> mrows A = n -> mcols A = n -> i + cnt + 1 = n ->
  (forall j, j < n -> fconj (f j j) = f j j) ->
  sinv n i (lu F) (dg F) F f -> (forall k, k < i -> F k k <> f0 /\ fconj (F k k) = F k k) ->
  (forall r (F' : nat -> nat -> K) m', ldltpost n f F' r -> pval m' A low F' ->
     keeps (inp A low) m m' -> Q r m') ->
  wp R W (ldlt_loop O A n i cnt) m Q.
Proof.
  induction cnt as [|cnt IH]; intros i F m Q Hwf HF Hw Hr Hc Hn Hre HI HD HQ; cbn [ldlt_loop].
  - eapply wp_pld; [exact HF|exact Hw|lia|lia|left; auto|].
    assert (HR : fconj (F i i) = F i i).
    { eapply (sinv_real L); [exact HI|exact Hre|intros; apply HD; assumption|lia|lia]. }
    rewrite (rw_real O H _ HR), (rw_re O H _ HR). cbn [orb].
    destruct (feqb (F i i) f0) eqn:E.
    + cbn [wp]. eapply HQ; [|exact HF|apply keeps_refl]. right. exists i.
      split; [reflexivity|]. split; [lia|].
      split; [intros p q Hp Hq; apply HI; lia|]. split; [apply (fl_eqb K L), E|exact HD].
    + apply (feqb_false L) in E. cbn [wp]. eapply HQ; [|exact HF|apply keeps_refl]. left.
      split; [reflexivity|]. split.
      * pose proof (ldlt_inv n i F f HI ltac:(lia) HR E) as HI'. cbv zeta in HI'.
        replace n with (S i) by lia. replace n with (S i) in HI' by lia.
        intros p q Hp Hq. rewrite (HI' p q Hp Hq). f_equal.
        -- apply sum_ext. intros k Hk. unfold tripart, symG. bsplit; try reflexivity; lia.
        -- bsplit; try reflexivity; lia.
      * intros k Hk. destruct (Nat.eq_dec k i) as [->|Ne]; [split; assumption|apply HD; lia].
  - eapply wp_pld; [exact HF|exact Hw|lia|lia|left; auto|].
    assert (HR : fconj (F i i) = F i i).
    { eapply (sinv_real L); [exact HI|exact Hre|intros; apply HD; assumption|lia|lia]. }
    rewrite (rw_real O H _ HR), (rw_re O H _ HR). cbn [orb].
    destruct (feqb (F i i) f0) eqn:E.
    + cbn [wp]. eapply HQ; [|exact HF|apply keeps_refl]. right. exists i.
      split; [reflexivity|]. split; [lia|].
      split; [intros p q Hp Hq; apply HI; lia|]. split; [apply (fl_eqb K L), E|exact HD].
    + apply (feqb_false L) in E. apply wp_bind. unfold ldlt_step.
      apply (wp_sym_step R W A n i (f1 / F i i)%F (fun x y => F i i * x * fconj y)%F F m); [exact Hwf|exact HF|exact Hw|exact Hr|exact Hc|lia|].
      intros m2 HF2 Hk2. rewrite Nat.add_1_r.
      eapply IH; [exact Hwf|exact HF2|exact Hw|exact Hr|exact Hc|lia|exact Hre| | |].
      * apply ldlt_inv; [exact HI|lia|exact HR|exact E].
      * intros k Hk. replace (symG _ _ _ _ k k) with (F k k).
        -- destruct (Nat.eq_dec k i) as [->|Ne]; [split; assumption|apply HD; lia].
        -- unfold symG. bsplit; try reflexivity; lia.
      * intros r F' m3 HP Hm3 Hk3. eapply HQ; [exact HP|exact Hm3|].
        eapply keeps_trans; eassumption.
Qed.

Lemma wp_ldltdecomp_amatrix R W A f m (Q : nat -> mem K -> Prop) :
  mwf A -> pval m A low f -> wrok W (inp A low) -> mrows A = mcols A -> 0 < mrows A ->
  (N.of_nat (mrows A) < 2 ^ 32)%N -> (forall j, j < mrows A -> fconj (f j j) = f j j) ->
  (forall r (F : nat -> nat -> K) m', ldltpost (mrows A) f F r -> pval m' A low F ->
     keeps (inp A low) m m' -> Q r m') ->
  wp R W (ldltdecomp_amatrix O A) m Q.
Proof.
  intros Hwf HF Hw Hc H0 H32 Hre HQ. unfold ldltdecomp_amatrix. wstep. rewrite (upred_S _ H0 H32).
  eapply (wp_ldlt_loop R W A (mrows A) f); eauto; [lia|apply (sinv_0 L)|intros; lia].
Qed.

Lemma lu_diag (F : nat -> nat -> K) i : lu F i i <> f0.
Proof. unfold tripart. rewrite Nat.eqb_refl. apply (fl_1_neq_0 K L). Qed.

Lemma ldltpost_0 n f F : ldltpost n f F 0 ->
  (forall i j, i < n -> j < n ->
     mmul n (lu F) (mmul n (diagpart F) (tr true (lu F))) i j = herm f i j) /\
  (forall i, i < n -> F i i <> f0 /\ fconj (F i i) = F i i) /\
  forall j, j <= n -> regular j (herm f).
Proof.
  intros [[_ [HI HD]]|[p [E _]]]; [|lia]. split; [|split; [exact HD|]].
  - intros i j Hi Hj. rewrite (sinv_herm L n n (lu F) (dg F) F f HI) by (auto; intros; apply HD; assumption).
    destruct (Nat.leb_spec n i); [lia|]. cbn [andb]. cbv beta. unfold mmul at 1.
    transitivity (sum n (fun k => lu F i k * F k k * fconj (lu F j k))%F); [|ring].
    apply sum_ext. intros k Hk.
    assert (E1 : mmul n (diagpart F) (tr true (lu F)) k j = (F k k * fconj (lu F j k))%F).
    { unfold mmul. rewrite (sum_single (fl_ring K L) n k); [unfold diagpart; rewrite Nat.eqb_refl; reflexivity|exact Hk|].
      intros l Hl Hne. unfold diagpart. destruct (Nat.eqb_spec k l); [congruence|ring]. }
    rewrite E1. ring.
  - intros j Hj. eapply (sinv_regular L) with (M := lu F) (d := dg F) (F := F).
    + apply (sinv_lead L n n j); [exact HI|apply lowtri_tri|exact Hj|exact Hj].
    + apply lowtri_tri.
    + intros k Hk. apply HD. lia.
    + intros k Hk. apply HD. lia.
    + intros i _. apply lu_diag.
Qed.

Lemma ldltpost_S n f F r : ldltpost n f F r -> 0 < r ->
  r <= n /\ singular r (herm f) /\ forall j, j < r -> regular j (herm f).
Proof.
  intros [[-> _]|[p [-> [Hp [HI [H0 HD]]]]]] Hr; [lia|].
  rewrite Nat.add_1_r in *. split; [lia|]. split.
  - destruct (sinv_stop L p (lu F) (dg F) F f HI (lowtri_tri true F)) as [v [Hv1 Hv]].
    { intros k Hk; apply HD, Hk. }
    { rewrite H0. apply (fconj_0 (fl_ring K L)). }
    { intros i _. apply lu_diag. }
    exists v. split; [exists p; split; [lia|rewrite Hv1; apply (fl_1_neq_0 K L)]|].
    intros i Hi. rewrite Hv by exact Hi. rewrite H0. destruct (i =? p); reflexivity.
  - intros j Hj. eapply (sinv_regular L) with (M := lu F) (d := dg F) (F := F).
    + apply (sinv_lead L (S p) p j); [exact HI|apply lowtri_tri|lia|lia].
    + apply lowtri_tri.
    + intros k Hk. apply HD. lia.
    + intros k Hk. apply HD. lia.
    + intros i _. apply lu_diag.
Qed.
End CHOL.
