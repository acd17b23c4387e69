(** * Surface meshes: what scaling achieves *)
From Coq Require Import Arith Lia List Bool Ring.
From Verif Require Import Fld Ord Prog Arr HmSpec Tri2d Tri2dP Tri2dP2 Surf SurfSpec SurfP SurfP2.
Import ListNotations.
Local Open Scope nat_scope.

Section Scaled.
  Context {K : ofops} (L : ofield_laws K) (big : K).
  Add Ring Kring_surf6 : (rl_ring K (fl_ring K (ol_field K L))).
  Let O := ofield_order L.

  (** Minimum and maximum of the coordinates. *)
  Lemma minmax_ok (x : arr K) n f j mn mx : table x 3 n f -> j < 3 -> 0 < n ->
    (forall i, i < n -> fle (fopp big) (f i j) /\ fle (f i j) big) ->
    minmax big x n j = Ok (mn, mx) ->
    (forall i, i < n -> fle mn (f i j) /\ fle (f i j) mx) /\
    (exists i, i < n /\ f i j = mn) /\ (exists i, i < n /\ f i j = mx).
  Proof.
    intros H Hj Hn Hb E.
    assert (G : rok (minmax big x n j) (fun p =>
      (forall i, i < n -> fle (fst p) (f i j) /\ fle (f i j) (snd p)) /\
      (fst p = big \/ exists i, i < n /\ f i j = fst p) /\ (snd p = fopp big \/ exists i, i < n /\ f i j = snd p))).
    { unfold minmax. apply (rok_for (fun k p =>
        (forall i, i < k -> fle (fst p) (f i j) /\ fle (f i j) (snd p)) /\
        (fst p = big \/ exists i, i < n /\ f i j = fst p) /\ (snd p = fopp big \/ exists i, i < n /\ f i j = snd p))).
      - cbn [fst snd]. split; [intros; lia|]. auto.
      - intros i [a b] Hi (H1 & H2 & H3). cbn [fst snd] in *. rewrite (tget _ _ _ _ i j H) by lia. cbn [rbind].
        split; [|split].
        + cbn [fst snd]. intros k Hk. destruct (Nat.eq_dec k i) as [->|N].
          * split.
            -- destruct (flt (f i j) a) eqn:Q; [apply (ole_refl O)|exact Q].
            -- destruct (flt b (f i j)) eqn:Q; [apply (ole_refl O)|exact Q].
          * destruct (H1 k ltac:(lia)) as [A B]. split.
            -- destruct (flt (f i j) a) eqn:Q; [|exact A]. eapply (ole_trans O); [apply (olt_le O); exact Q|exact A].
            -- destruct (flt b (f i j)) eqn:Q; [|exact B]. eapply (ole_trans O); [exact B|apply (olt_le O); exact Q].
        + cbn [fst]. destruct (flt (f i j) a); [right; exists i; split; [lia|reflexivity]|exact H2].
        + cbn [snd]. destruct (flt b (f i j)); [right; exists i; split; [lia|reflexivity]|exact H3].
      - change (0 + n) with n. auto. }
    rewrite E in G. cbn [rok fst snd] in G. destruct G as (G1 & G2 & G3). split; [exact G1|]. split.
    - destruct G2 as [->|G2]; [|exact G2]. exists 0. split; [exact Hn|].
      apply (fle_antisym L); [apply (Hb 0 Hn)|apply (G1 0 Hn)].
    - destruct G3 as [->|G3]; [|exact G3]. exists 0. split; [exact Hn|].
      apply (fle_antisym L); [apply (G1 0 Hn)|apply (Hb 0 Hn)].
  Qed.

  Lemma sdir_max (q : nat -> K) : sdir q < 3 /\ forall j, j < 3 -> fle (q j) (q (sdir q)).
  Proof.
    unfold sdir. destruct (flt (q 1) (q 0)) eqn:Q1.
    - destruct (flt (q 2) (q 0)) eqn:Q2; (split; [lia|]); intros [|[|[|j]]] Hj; try lia.
      + apply (ole_refl O).
      + apply (olt_le O). exact Q1.
      + apply (olt_le O). exact Q2.
      + exact Q2.
      + eapply (ole_trans O); [apply (olt_le O); exact Q1|exact Q2].
      + apply (ole_refl O).
    - destruct (flt (q 2) (q 1)) eqn:Q2; (split; [lia|]); intros [|[|[|j]]] Hj; try lia.
      + exact Q1.
      + apply (ole_refl O).
      + apply (olt_le O). exact Q2.
      + eapply (ole_trans O); [exact Q1|exact Q2].
      + exact Q2.
      + apply (ole_refl O).
  Qed.

  Lemma fle_mul (c x y : K) : fle f0 c -> fle x y -> fle (c * x)%F (c * y)%F.
  Proof.
    intros Hc H. apply (fle_sub L). replace (c * y - c * x)%F with (c * (y - x))%F by ring.
    apply (fle_mul_nn L); [exact Hc|]. apply (proj1 (fle_sub L _ _)). exact H.
  Qed.

  (** The factor and the shift of the direction [d] with the largest quotient. *)
  Lemma factor_ok (mn mx a b : nat -> K) d :
    d < 3 -> (forall j, j < 3 -> flt (a j) (b j) = true) -> (forall j, j < 3 -> fle (mn j) (mx j)) ->
    (exists j, j < 3 /\ flt (mn j) (mx j) = true) ->
    (forall j, j < 3 -> fle ((mx j - mn j) / (b j - a j))%F ((mx d - mn d) / (b d - a d))%F) ->
    let be := ((b d - a d) / (mx d - mn d))%F in
    flt f0 be = true /\ (be * (mx d - mn d))%F = (b d - a d)%F /\
    forall j, j < 3 -> fle (be * (mx j - mn j))%F (b j - a j)%F.
  Proof.
    intros Hd Hab Hm (k & Hk & Hlt) Hq be.
    assert (PB : forall j, j < 3 -> flt f0 (b j - a j)%F = true) by (intros j Hj; apply (proj1 (flt_sub L _ _)); auto).
    assert (QE : forall j, j < 3 -> ((mx j - mn j) / (b j - a j) * (b j - a j))%F = (mx j - mn j)%F).
    { intros j Hj. unfold fdiv. transitivity ((mx j - mn j) * (finv (b j - a j) * (b j - a j)))%F; [ring|].
      rewrite (fl_inv K (ol_field K L)); [ring|]. intros Z. pose proof (PB j Hj) as P. rewrite Z in P.
      rewrite (ol_irrefl K L) in P. discriminate. }
    set (q := fun j => ((mx j - mn j) / (b j - a j))%F) in *.
    assert (Qk : flt f0 (q k) = true).
    { unfold q, fdiv.
      assert (P1 : flt f0 (mx k - mn k)%F = true) by (apply (proj1 (flt_sub L _ _)); exact Hlt).
      pose proof (proj2 (flt_mul_pos L (finv (b k - a k)) f0 (mx k - mn k)%F (finv_pos L _ (PB k Hk))) P1) as P2.
      replace (finv (b k - a k) * f0)%F with (f0 : K) in P2 by ring.
      replace ((mx k - mn k) * finv (b k - a k))%F with (finv (b k - a k) * (mx k - mn k))%F by ring. exact P2. }
    assert (Qd : flt f0 (q d) = true) by (eapply (olt_le_trans O); [exact Qk|apply Hq; exact Hk]).
    assert (Pd : flt f0 (mx d - mn d)%F = true).
    { rewrite <- (QE d Hd). change (flt f0 (q d * (b d - a d))%F = true). pose proof (proj2 (flt_mul_pos L (b d - a d)%F f0 (q d) (PB d Hd)) Qd) as P.
      replace ((b d - a d) * f0)%F with (f0 : K) in P by ring.
      replace (q d * (b d - a d))%F with ((b d - a d) * q d)%F by ring. exact P. }
    assert (Nd : (mx d - mn d)%F <> f0) by (intros Z; rewrite Z, (ol_irrefl K L) in Pd; discriminate).
    assert (B1 : (be * (mx d - mn d))%F = (b d - a d)%F).
    { unfold be, fdiv. transitivity ((b d - a d) * (finv (mx d - mn d) * (mx d - mn d)))%F; [ring|].
      rewrite (fl_inv K (ol_field K L)) by exact Nd. ring. }
    assert (B0 : flt f0 be = true).
    { unfold be, fdiv. pose proof (proj2 (flt_mul_pos L (finv (mx d - mn d)) f0 (b d - a d)%F (finv_pos L _ Pd)) (PB d Hd)) as P.
      replace (finv (mx d - mn d) * f0)%F with (f0 : K) in P by ring.
      replace ((b d - a d) * finv (mx d - mn d))%F with (finv (mx d - mn d) * (b d - a d))%F by ring. exact P. }
    split; [exact B0|]. split; [exact B1|]. intros j Hj.
    assert (X : (be * q d)%F = f1).
    { assert (Y : ((b d - a d) * (be * q d))%F = (b d - a d)%F).
      { transitivity (be * (q d * (b d - a d)))%F; [ring|]. unfold q. rewrite QE by exact Hd. exact B1. }
      transitivity (finv (b d - a d) * (b d - a d) * (be * q d))%F.
      - rewrite (fl_inv K (ol_field K L)); [ring|]. intros Z. pose proof (PB d Hd) as P. rewrite Z, (ol_irrefl K L) in P. discriminate.
      - transitivity (finv (b d - a d) * ((b d - a d) * (be * q d)))%F; [ring|]. rewrite Y.
        apply (fl_inv K (ol_field K L)). intros Z. pose proof (PB d Hd) as P. rewrite Z, (ol_irrefl K L) in P. discriminate. }
    rewrite <- (QE j Hj). change (fle (be * (q j * (b j - a j)))%F (b j - a j)%F).
    replace (be * (q j * (b j - a j)))%F with ((b j - a j) * be * q j)%F by ring.
    replace (b j - a j)%F with ((b j - a j) * be * q d)%F at 2
      by (transitivity ((b j - a j) * (be * q d))%F; [ring|rewrite X; ring]).
    apply fle_mul; [|apply Hq; exact Hj].
    apply (fle_mul_nn L); apply (olt_le O); auto.
  Qed.

  Lemma scale_size (al be x y mn mx : K) d : flt f0 be = true -> fle mn x /\ fle x mx -> fle mn y /\ fle y mx ->
    fle (be * (mx - mn))%F d -> fle (al + be * x - (al + be * y))%F d.
  Proof.
    intros Hb [_ Hx] [Hy _] H. eapply (ole_trans O); [|exact H].
    replace (al + be * x - (al + be * y))%F with (be * (x - y))%F by ring.
    apply fle_mul; [apply (olt_le O); exact Hb|]. apply (fle_sub_sub L); assumption.
  Qed.
  Lemma scale_in (be mn mx a b x : K) : flt f0 be = true -> (be * (mx - mn))%F = (b - a)%F -> fle mn x -> fle x mx ->
    fle a (a - be * mn + be * x)%F /\ fle (a - be * mn + be * x)%F b.
  Proof.
    intros Hb E H1 H2. split.
    - apply (fle_sub L). replace (a - be * mn + be * x - a)%F with (be * (x - mn))%F by ring.
      apply (fle_mul_nn L); [apply (olt_le O); exact Hb|]. apply (proj1 (fle_sub L _ _)). exact H1.
    - apply (fle_sub L). replace (b - (a - be * mn + be * x))%F with (b - a - be * (mx - mn) + be * (mx - x))%F by ring.
      rewrite E. replace (b - a - (b - a) + be * (mx - x))%F with (be * (mx - x))%F by ring.
      apply (fle_mul_nn L); [apply (olt_le O); exact Hb|]. apply (proj1 (fle_sub L _ _)). exact H2.
  Qed.
  Lemma scale_low (be mn a : K) : (a - be * mn + be * mn)%F = a.
  Proof. ring. Qed.
  Lemma scale_high (be mn mx a b : K) : (be * (mx - mn))%F = (b - a)%F -> (a - be * mn + be * mx)%F = b.
  Proof. intros E. transitivity (a + be * (mx - mn))%F; [ring|]. rewrite E. ring. Qed.
End Scaled.
