(** * Uniqueness of the Cholesky factor *)
From Coq Require Import Arith NArith Lia List Bool Ring.
From Verif Require Import Fld Prog View Spec Loop Avector AvectorP Amatrix AmatrixP Factor FactorSpec Line
  FactorP FactorP2 FactorP3 FactorP4 Lr LrP LrP2 Chol CholSpec CholP CholP2.

Section CHOL5.
Context {K : fops} (L : field_laws K) (O : rops K) (H : rlaws O).
Add Ring KringC5 : (rl_ring K (fl_ring K L)).
Notation lo := (tripart true false).
Notation one := (fun _ : nat => f1).

Lemma sum_pad n j (g : nat -> K) : j <= n -> (forall i, j <= i -> i < n -> g i = f0) -> sum n g = sum j g.
Proof.
  intros Hj Hg. replace n with (j + (n - j)) by lia. rewrite (sum_app (fl_ring K L)).
  rewrite (sum_0 (fl_ring K L) (n - j)); [ring|]. intros i Hi. apply Hg; lia.
Qed.

Lemma posdef_lead n j (f : nat -> nat -> K) : j <= n -> posdef O n f -> posdef O j f.
Proof.
  intros Hj HP v [i [Hi Hv]].
  rewrite <- (HP (fun i => if i <? j then v i else f0)).
  2:{ exists i. split; [lia|]. destruct (Nat.ltb_spec i j); [exact Hv|lia]. }
  f_equal. unfold quad, dot, mvec. symmetry. rewrite (sum_pad n j).
  - apply sum_ext. intros k Hk. destruct (Nat.ltb_spec k j); [|lia].
    f_equal. rewrite (sum_pad n j); [|lia|].
    + apply sum_ext. intros l Hl. destruct (Nat.ltb_spec l j); [reflexivity|lia].
    + intros l Hl Hl'. destruct (Nat.ltb_spec l j); [lia|ring].
  - exact Hj.
  - intros k Hk Hk'. destruct (Nat.ltb_spec k j); [lia|]. rewrite (fconj_0 (fl_ring K L)). ring.
Qed.

(** Positive elements are determined by their squares. *)
Lemma sq_inj (s t : K) : fconj s = s -> fconj t = t -> nonpos O s = false -> nonpos O t = false ->
  (s * s = t * t)%F -> s = t.
Proof.
  intros Hs Ht Ps Pt E.
  assert (N : (s + t)%F <> f0).
  { intros E0. destruct (rw_sqrt O H s Hs Ps) as [Es [Cs _]]. destruct (rw_sqrt O H t Ht Pt) as [Et [Ct _]].
    assert (Z : rsqrt O s = f0).
    { apply (rw_sumsq O H 2 (fun i => if i =? 0 then rsqrt O s else rsqrt O t)) with (i := 0); [|lia].
      rewrite <- (rw_0 O H). f_equal. rewrite <- E0. unfold dot. cbn [sum]. change (0 =? 0) with true. change (1 =? 0) with false. cbv iota. rewrite Cs, Ct, Es, Et. ring. }
    apply (pos_n0 O H s Ps). rewrite <- Es, Z. ring. }
  assert (D : ((s + t) * s = (s + t) * t)%F).
  { transitivity (s * s + t * s)%F; [ring|]. rewrite E. ring. }
  exact (mul_cancel L _ _ _ N D).
Qed.

Lemma sinv_unique n (F F' f : nat -> nat -> K) :
  sinv n n (lo F) one F f -> sinv n n (lo F') one F' f ->
  (forall i, i < n -> nonpos O (F i i) = false /\ fconj (F i i) = F i i) ->
  (forall i, i < n -> nonpos O (F' i i) = false /\ fconj (F' i i) = F' i i) ->
  forall i j, i < n -> j <= i -> F i j = F' i j.
Proof.
  intros HI HI' HD HD'.
  assert (Ent : forall F, sinv n n (lo F) one F f -> forall i j, i < n -> j <= i ->
    f i j = (sum j (fun k => F i k * fconj (F j k)) + F i j * fconj (F j j))%F).
  { intros G HG i j Hi Hj. rewrite (HG i j Hi Hj). destruct (Nat.leb_spec n j); [lia|].
    rewrite (sum_pad n (S j)); [|lia|].
    - cbn [sum]. rewrite (sum_ext j _ (fun k => G i k * fconj (G j k))%F).
      + unfold tripart. bsplit; try lia; try (replace i with j by lia); ring.
      + intros k Hk. unfold tripart. bsplit; try lia; ring.
    - intros k Hk Hk'. replace (lo G j k) with (@f0 K) by (unfold tripart; bsplit; try reflexivity; lia).
      rewrite (fconj_0 (fl_ring K L)). ring. }
  intros i j. revert i. induction j as [j IH] using lt_wf_ind. intros i Hi Hj.
  assert (Eq : forall i, i < n -> j <= i -> (F i j * fconj (F j j) = F' i j * fconj (F' j j))%F).
  { intros p Hp Hp'.
    assert (Es : sum j (fun k => F p k * fconj (F j k))%F = sum j (fun k => F' p k * fconj (F' j k))%F).
    { apply sum_ext. intros k Hk. rewrite (IH k Hk p), (IH k Hk j) by lia. reflexivity. }
    pose proof (Ent F HI p j Hp Hp') as E1. pose proof (Ent F' HI' p j Hp Hp') as E2.
    rewrite Es in E1. rewrite E1 in E2. 
    transitivity (sum j (fun k => F' p k * fconj (F' j k)) + F p j * fconj (F j j) - sum j (fun k => F' p k * fconj (F' j k)))%F; [ring|].
    rewrite E2. ring. }
  assert (Hjn : j < n) by lia.
  destruct (HD j Hjn) as [P C]. destruct (HD' j Hjn) as [P' C'].
  assert (Ed : F j j = F' j j).
  { apply sq_inj; auto. pose proof (Eq j Hjn (le_n j)) as E. rewrite C, C' in E. exact E. }
  pose proof (Eq i Hi Hj) as E. rewrite C, C', Ed in E.
  apply (mul_cancel L (F' j j)); [apply (pos_n0 O H), P'|].
  transitivity (F i j * F' j j)%F; [ring|]. rewrite E. ring.
Qed.

Lemma cholpost_unique n f F F' r r' : cholpost O n f F r -> cholpost O n f F' r' ->
  r = r' /\ (r = 0 -> forall i j, i < n -> j <= i -> F i j = F' i j).
Proof.
  intros HP HP'.
  assert (E : r = r').
  { destruct (Nat.eq_dec r 0) as [->|N]; destruct (Nat.eq_dec r' 0) as [->|N'].
    - reflexivity.
    - exfalso. destruct (cholpost_S L O H _ _ _ _ HP') as [H1 [H2 _]]; [lia|].
      apply H2. eapply posdef_lead; [exact H1|]. eapply (cholpost_0 L O H); exact HP.
    - exfalso. destruct (cholpost_S L O H _ _ _ _ HP) as [H1 [H2 _]]; [lia|].
      apply H2. eapply posdef_lead; [exact H1|]. eapply (cholpost_0 L O H); exact HP'.
    - destruct (cholpost_S L O H _ _ _ _ HP) as [H1 [H2 H3]]; [lia|].
      destruct (cholpost_S L O H _ _ _ _ HP') as [H1' [H2' H3']]; [lia|].
      destruct (lt_eq_lt_dec r r') as [[Hlt|Heq]|Hlt]; [|exact Heq|]; exfalso; eauto. }
  split; [exact E|]. intros ->. subst r'.
  destruct HP as [[_ [HI HD]]|[p [Ep _]]]; [|lia].
  destruct HP' as [[_ [HI' HD']]|[p [Ep _]]]; [|lia].
  eapply sinv_unique; eassumption.
Qed.
End CHOL5.
