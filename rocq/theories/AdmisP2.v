(** * Admissibility by bounding spheres: proofs *)
From Coq Require Import Ring Arith Lia List Bool.
From Verif Require Import Fld Ord Prog Arr Cluster ClusterSpec ClusterP4 Admis AdmisSpec AdmisP.
Import ListNotations.

Section Sphere.
  Context {K : ofops} (L : ofield_laws K) (sq : K -> K) (Hsq : sqrt_laws sq).
  Add Ring KringAdm2 : (rl_ring K (fl_ring K (ol_field K L))).
  Let O := ofield_order L.
  Local Open Scope fld_scope.

  Lemma sum_add n (f g : nat -> K) : sum n (fun i => f i + g i) = sum n f + sum n g.
  Proof. induction n as [|n IH]; cbn; [ring|]. rewrite IH. ring. Qed.
  Lemma sum_scale n (c : K) (f : nat -> K) : sum n (fun i => c * f i) = c * sum n f.
  Proof. induction n as [|n IH]; cbn; [ring|]. rewrite IH. ring. Qed.
  Lemma sum_eq n (f g : nat -> K) : (forall i, (i < n)%nat -> f i = g i) -> sum n f = sum n g.
  Proof. induction n as [|n IH]; intros H; cbn; [reflexivity|]. rewrite IH by (intros; apply H; lia). rewrite H by lia. reflexivity. Qed.

  (** Cauchy-Schwarz *)
  Lemma cauchy n (a b : nat -> K) :
    fle (sum n (fun i => a i * b i) * sum n (fun i => a i * b i)) (sum n (fun i => a i * a i) * sum n (fun i => b i * b i)).
  Proof.
    induction n as [|n IH]; cbn; [replace (0 * 0) with (@f0 K) by ring; apply (ole_refl O)|].
    set (S := sum n (fun i => a i * b i)) in *. set (A := sum n (fun i => a i * a i)) in *.
    set (B := sum n (fun i => b i * b i)) in *. set (x := a n). set (y := b n).
    assert (HA : fle 0 A) by (apply (sum_nn L); intros; apply (fsq_nn L)).
    assert (HB : fle 0 B) by (apply (sum_nn L); intros; apply (fsq_nn L)).
    assert (H : fle ((1 + 1) * (S * (x * y))) (A * (y * y) + B * (x * x))).
    { apply (fsq_le_inv L).
      - apply (fle_add_nn L); apply (fle_mul_nn L); try assumption; apply (fsq_nn L).
      - apply (fle_sub L). replace ((A * (y * y) + B * (x * x)) * (A * (y * y) + B * (x * x))
          - (1 + 1) * (S * (x * y)) * ((1 + 1) * (S * (x * y)))) with
          ((A * (y * y) - B * (x * x)) * (A * (y * y) - B * (x * x)) +
           ((1 + 1) * ((1 + 1) * ((x * y) * (x * y))) * (A * B - S * S))) by ring.
        apply (fle_add_nn L); [apply (fsq_nn L)|]. apply (fle_mul_nn L).
        + assert (P2 : fle 0 (@fadd K 1 1)) by (apply (olt_le O), (f2_pos L)).
          apply (fle_mul_nn L); [exact P2|]. apply (fle_mul_nn L); [exact P2|]. apply (fsq_nn L).
        + apply (proj1 (fle_sub L _ _)). exact IH. }
    apply (fle_sub L). replace ((A + x * x) * (B + y * y) - (S + x * y) * (S + x * y)) with
      ((A * B - S * S) + (A * (y * y) + B * (x * x) - (1 + 1) * (S * (x * y)))) by ring.
    apply (fle_add_nn L); apply (proj1 (fle_sub L _ _)); assumption.
  Qed.

  Lemma edist_nn d x y : fle 0 (edist sq d x y).
  Proof. apply Hsq. apply (dist2_nn L). Qed.
  Lemma edist_sq d x y : edist sq d x y * edist sq d x y = dist2 d x y.
  Proof. apply Hsq. apply (dist2_nn L). Qed.
  Lemma dist2_sym d (x y : nat -> K) : dist2 d x y = dist2 d y x.
  Proof. apply sum_eq. intros. ring. Qed.
  Lemma edist_sym d x y : edist sq d x y = edist sq d y x.
  Proof. unfold edist. rewrite dist2_sym. reflexivity. Qed.

  Lemma triangle d x y z : fle (edist sq d x z) (edist sq d x y + edist sq d y z).
  Proof.
    apply (fsq_le_inv L); [apply (fle_add_nn L); apply edist_nn|].
    rewrite edist_sq. set (a := fun i => x i - y i). set (b := fun i => y i - z i).
    set (S := sum d (fun i => a i * b i)).
    assert (E : dist2 d x z = dist2 d x y + (S + S) + dist2 d y z).
    { unfold dist2, S. rewrite <- !sum_add. apply sum_eq. intros i Hi. unfold a, b. ring. }
    assert (H : fle S (edist sq d x y * edist sq d y z)).
    { apply (fsq_le_inv L); [apply (fle_mul_nn L); apply edist_nn|].
      replace (edist sq d x y * edist sq d y z * (edist sq d x y * edist sq d y z)) with
        ((edist sq d x y * edist sq d x y) * (edist sq d y z * edist sq d y z)) by ring.
      rewrite !edist_sq. apply cauchy. }
    rewrite E, <- !edist_sq. apply (fle_sub L).
    match goal with |- fle _ ?e => replace e with
      ((edist sq d x y * edist sq d y z - S) + (edist sq d x y * edist sq d y z - S)) by ring end.
    apply (fle_add_nn L); apply (proj1 (fle_sub L _ _)); exact H.
  Qed.

  Lemma edist_scale d (c : K) x y u v : fle 0 c -> (forall j, (j < d)%nat -> x j - y j = c * (u j - v j)) ->
    edist sq d x y = c * edist sq d u v.
  Proof.
    intros Hc H. assert (E : edist sq d x y * edist sq d x y = (c * edist sq d u v) * (c * edist sq d u v)).
    { replace (c * edist sq d u v * (c * edist sq d u v)) with (c * c * (edist sq d u v * edist sq d u v)) by ring.
      rewrite !edist_sq. unfold dist2. rewrite <- sum_scale. apply sum_eq. intros j Hj. rewrite H by exact Hj. ring. }
    apply (fle_antisym L); apply (fsq_le_inv L).
    - apply (fle_mul_nn L); [exact Hc|apply edist_nn].
    - rewrite E. apply (ole_refl O).
    - apply edist_nn.
    - rewrite E. apply (ole_refl O).
  Qed.

  Lemma half2 (x : K) : x = finv f2 * x + finv f2 * x.
  Proof.
    assert (I2 : (1 + 1) * finv (@f2 K) = 1).
    { apply (finv_r (ol_field K L)). apply not_eq_sym, (flt_ne L), (f2_pos L). }
    transitivity (((1 + 1) * finv f2) * x); [rewrite I2; ring|ring].
  Qed.
  Lemma half_le (x y : K) : fle (f2 * x) y -> fle x (fdiv y f2).
  Proof.
    intros H. apply (fle_sub L). apply (proj1 (fle_sub L _ _)) in H.
    replace (fdiv y f2 - x) with (fdiv (y - f2 * x) f2).
    - unfold fdiv. apply (fle_mul_nn L); [exact H|]. apply (olt_le O), (finv_pos L), (f2_pos L).
    - rewrite (half2 x) at 2. unfold fdiv. replace (f2 * x) with (x + x) by (unfold f2; ring). ring.
  Qed.
  Lemma half_le_inv (x y : K) : fle x (fdiv y f2) -> fle (f2 * x) y.
  Proof.
    intros H. rewrite <- (half_def L y). replace (f2 * x) with (x + x) by (unfold f2; ring).
    apply (fle_add L); exact H.
  Qed.
  Lemma half_nn (x : K) : fle 0 x -> fle 0 (fdiv x f2).
  Proof. intros H. apply (fle_mul_nn L); [exact H|]. apply (olt_le O), (finv_pos L), (f2_pos L). Qed.

  Definition mid (B1 B2 : nat -> K) (j : nat) : K := fdiv (B1 j + B2 j) f2.

  Lemma in_ball_iff d B1 B2 x : in_ball sq d B1 B2 x <-> fle (edist sq d x (mid B1 B2)) (fdiv (edist sq d B1 B2) f2).
  Proof. split; [apply half_le|apply half_le_inv]. Qed.

  (** The corners of the box lie on the ball. *)
  Lemma corner_in d B1 B2 : in_ball sq d B1 B2 B1 /\ in_ball sq d B1 B2 B2.
  Proof.
    assert (H2 : fle 0 (fdiv 1 (@f2 K))) by (apply half_nn, (olt_le O), (f1_pos L)).
    rewrite !in_ball_iff. split.
    - rewrite (edist_scale d (fdiv 1 f2) B1 (mid B1 B2) B1 B2 H2).
      + unfold fdiv. replace (1 * finv f2 * edist sq d B1 B2) with (edist sq d B1 B2 * finv f2) by ring. apply (ole_refl O).
      + intros j _. unfold mid, fdiv. rewrite (half2 (B1 j)) at 1. ring.
    - rewrite edist_sym. rewrite (edist_scale d (fdiv 1 f2) (mid B1 B2) B2 B1 B2 H2).
      + unfold fdiv. replace (1 * finv f2 * edist sq d B1 B2) with (edist sq d B1 B2 * finv f2) by ring. apply (ole_refl O).
      + intros j _. unfold mid, fdiv. rewrite (half2 (B2 j)) at 2. ring.
  Qed.

  Lemma ball_diam d B1 B2 :
    (forall x x', in_ball sq d B1 B2 x -> in_ball sq d B1 B2 x' -> fle (edist sq d x x') (edist sq d B1 B2)) /\
    (exists x x', in_ball sq d B1 B2 x /\ in_ball sq d B1 B2 x' /\ edist sq d B1 B2 = edist sq d x x').
  Proof.
    split.
    - intros x x' H H'. apply in_ball_iff in H, H'. eapply (ole_trans O); [apply (triangle d x (mid B1 B2) x')|].
      rewrite <- (half_def L (edist sq d B1 B2)). apply (fle_add L); [exact H|]. rewrite edist_sym. exact H'.
    - destruct (corner_in d B1 B2). exists B1, B2. auto.
  Qed.

  (** The box lies in the ball. *)
  Lemma box_in_ball d B1 B2 x : (forall j, (j < d)%nat -> fle (B1 j) (B2 j)) -> in_box d B1 B2 x -> in_ball sq d B1 B2 x.
  Proof.
    intros HB Hx. apply in_ball_iff. destruct (corner_in d B1 B2) as [C _]. apply in_ball_iff in C.
    assert (E : edist sq d B1 (mid B1 B2) = fdiv (edist sq d B1 B2) f2).
    { assert (H2 : fle 0 (fdiv 1 (@f2 K))) by (apply half_nn, (olt_le O), (f1_pos L)).
      rewrite (edist_scale d (fdiv 1 f2) B1 (mid B1 B2) B1 B2 H2).
      + unfold fdiv. ring.
      + intros j _. unfold mid, fdiv. rewrite (half2 (B1 j)) at 1. ring. }
    rewrite <- E. apply (sq_mono L); [exact Hsq|apply (dist2_nn L)|]. apply (sum_le L). intros j Hj.
    destruct (Hx j Hj) as [X1 X2].
    apply (fle_sub L). unfold mid.
    replace ((B1 j - fdiv (B1 j + B2 j) f2) * (B1 j - fdiv (B1 j + B2 j) f2) -
             (x j - fdiv (B1 j + B2 j) f2) * (x j - fdiv (B1 j + B2 j) f2)) with
      ((x j - B1 j) * (B2 j - x j)).
    - apply (fle_mul_nn L); apply (proj1 (fle_sub L _ _)); assumption.
    - set (c := fdiv (B1 j + B2 j) f2).
      assert (C2 : B1 j + B2 j = c + c) by (unfold c; rewrite (half_def L); reflexivity).
      replace (B2 j) with (c + c - B1 j) by (rewrite <- C2; ring). ring.
  Qed.

  Section Balls.
  Variables (d : nat) (T1 T2 S1 S2 : nat -> K).
  Let mt := mid T1 T2.
  Let ms := mid S1 S2.
  Let Dm := edist sq d mt ms.
  Let dt := edist sq d T1 T2.
  Let ds := edist sq d S1 S2.
  Let h := fdiv dt f2 + fdiv ds f2.

  Lemma ball_dist :
    (forall p q, in_ball sq d T1 T2 p -> in_ball sq d S1 S2 q -> fle (fmax (Dm - h) 0) (edist sq d p q)) /\
    (exists p q, in_ball sq d T1 T2 p /\ in_ball sq d S1 S2 q /\ fmax (Dm - h) 0 = edist sq d p q).
  Proof.
    assert (Ht : fle 0 dt) by apply edist_nn. assert (Hs : fle 0 ds) by apply edist_nn.
    assert (HD : fle 0 Dm) by apply edist_nn.
    assert (Hh : fle 0 h) by (apply (fle_add_nn L); apply half_nn; assumption).
    split.
    - intros p q Hp Hq. apply in_ball_iff in Hp, Hq. apply (fmax_lub); [|apply edist_nn].
      assert (H : fle Dm (edist sq d mt p + (edist sq d p q + edist sq d q ms))).
      { eapply (ole_trans O); [apply (triangle d mt p ms)|]. apply (fle_add L); [apply (ole_refl O)|apply triangle]. }
      rewrite (edist_sym d mt p) in H. apply (fle_sub L). apply (proj1 (fle_sub L _ _)) in H, Hp, Hq.
      fold mt dt in Hp. fold ms ds in Hq.
      replace (edist sq d p q - (Dm - h)) with ((edist sq d p mt + (edist sq d p q + edist sq d q ms) - Dm) +
        ((fdiv dt f2 - edist sq d p mt) + (fdiv ds f2 - edist sq d q ms))) by (unfold h; ring).
      apply (fle_add_nn L); [exact H|]. apply (fle_add_nn L); assumption.
    - set (N := fmax Dm h).
      assert (N1 : fle Dm N) by apply (fmax_l O). assert (N2 : fle h N) by apply (fmax_r O).
      destruct (flt 0 N) eqn:EN.
      + assert (NZ : N <> 0) by (apply not_eq_sym, (flt_ne L), EN).
        assert (IN : N * finv N = 1) by (apply (finv_r (ol_field K L)); exact NZ).
        assert (IP : fle 0 (finv N)) by (apply (olt_le O), (finv_pos L), EN).
        set (l := fdiv dt f2 * finv N). set (m := fdiv ds f2 * finv N).
        assert (Hl : fle 0 l) by (apply (fle_mul_nn L); [apply half_nn; exact Ht|exact IP]).
        assert (Hm : fle 0 m) by (apply (fle_mul_nn L); [apply half_nn; exact Hs|exact IP]).
        exists (fun j => mt j + l * (ms j - mt j)), (fun j => ms j + m * (mt j - ms j)).
        split; [|split].
        * apply in_ball_iff. fold mt dt. rewrite edist_sym.
          rewrite (edist_scale d l _ _ mt ms Hl) by (intros; ring). fold Dm.
          eapply (ole_trans O); [apply (fle_mul_l L); [exact Hl|exact N1]|].
          replace (l * N) with (fdiv dt f2); [apply (ole_refl O)|]. unfold l. ring [IN].
        * apply in_ball_iff. fold ms ds.
          rewrite (edist_scale d m _ _ mt ms Hm) by (intros; ring). fold Dm.
          eapply (ole_trans O); [apply (fle_mul_l L); [exact Hm|exact N1]|].
          replace (m * N) with (fdiv ds f2); [apply (ole_refl O)|]. unfold m. ring [IN].
        * assert (Hc : fle 0 (1 - l - m)).
          { replace (1 - l - m) with ((N - h) * finv N) by (unfold l, m, h; ring [IN]).
            apply (fle_mul_nn L); [|exact IP]. apply (proj1 (fle_sub L _ _)). exact N2. }
          rewrite (edist_scale d (1 - l - m) _ _ mt ms Hc) by (intros; ring). fold Dm.
          replace (1 - l - m) with ((N - h) * finv N) by (unfold l, m, h; ring [IN]).
          assert (NM : N = fmax Dm h) by reflexivity. clearbody N. unfold fmax in *. destruct (flt Dm h) eqn:E.
          -- subst N. replace (flt (Dm - h) 0) with true; [ring|].
             symmetry. apply (flt_sub L). replace (0 - (Dm - h)) with (h - Dm) by ring. apply (proj1 (flt_sub L _ _)). exact E.
          -- subst N. replace (flt (Dm - h) 0) with false; [ring [IN]|].
             symmetry. apply (fle_sub L) in E. exact E.
      + assert (N0 : N = 0) by (apply (fle_antisym L); [exact EN|eapply (ole_trans O); [exact HD|exact N1]]).
        assert (D0 : Dm = 0) by (apply (fle_antisym L); [rewrite <- N0; exact N1|exact HD]).
        assert (h0 : h = 0) by (apply (fle_antisym L); [rewrite <- N0; exact N2|exact Hh]).
        assert (self : forall x, edist sq d x x = 0).
        { intros x. rewrite (edist_scale d 0 x x x x) by (first [apply (ole_refl O)|intros; ring]). ring. }
        exists mt, ms. split; [|split].
        * apply in_ball_iff. fold mt dt. rewrite self. apply half_nn. exact Ht.
        * apply in_ball_iff. fold ms ds. rewrite self. apply half_nn. exact Hs.
        * fold Dm. rewrite D0, h0. unfold fmax. replace (0 - 0) with (@f0 K) by ring. rewrite (ol_irrefl K L). reflexivity.
  Qed.

  Lemma sphere_iff eta : fle 0 eta ->
    (fle dt (eta * (Dm - h)) /\ fle ds (eta * (Dm - h)) <->
     fle dt (eta * fmax (Dm - h) 0) /\ fle ds (eta * fmax (Dm - h) 0)).
  Proof.
    intros He. assert (Ht : fle 0 dt) by apply edist_nn. assert (Hs : fle 0 ds) by apply edist_nn.
    assert (HD : fle 0 Dm) by apply edist_nn.
    split.
    - intros [A B]. assert (X : fle (eta * (Dm - h)) (eta * fmax (Dm - h) 0)) by (apply (fle_mul_l L); [exact He|apply (fmax_l O)]).
      split; (eapply (ole_trans O); [|exact X]); assumption.
    - unfold fmax. destruct (flt (Dm - h) 0) eqn:E; [|tauto].
      replace (eta * 0) with (@f0 K) by ring. intros [A B]. exfalso.
      assert (t0 : dt = 0) by (apply (fle_antisym L); assumption).
      assert (s0 : ds = 0) by (apply (fle_antisym L); assumption).
      assert (h0 : h = 0) by (unfold h; rewrite t0, s0; unfold fdiv; ring).
      rewrite h0 in E. replace (Dm - 0) with Dm in E by ring. unfold fle in HD. congruence.
  Qed.
  End Balls.

  Lemma run_adm_sphere d (t s : cluster K) T1 T2 S1 S2 eta : box_of d t T1 T2 -> box_of d s S1 S2 -> fle 0 eta ->
    exists b, admissible_sphere_cluster sq eta t s = Ok b /\
    (b = true <-> separated (edist sq d) eta (in_ball sq d T1 T2) (in_ball sq d S1 S2) (in_ball sq d T1 T2) /\
                  separated (edist sq d) eta (in_ball sq d T1 T2) (in_ball sq d S1 S2) (in_ball sq d S1 S2)).
  Proof.
    intros (D & V1 & V2 & H) (D' & V1' & V2' & H') He.
    unfold admissible_sphere_cluster. cbv zeta. rewrite D, D', Nat.eqb_refl. cbn [rassert rbind].
    rewrite (diam_2_val d t T1 T2 D V1 V2), (diam_2_val d s S1 S2 D' V1' V2'). cbn [rbind].
    match goal with |- exists b, rbind ?r _ = _ /\ _ => assert (R : rok r (fun v => v = dist2 d (mid T1 T2) (mid S1 S2))) end.
    { eapply (rok_for (fun i v => v = dist2 i (mid T1 T2) (mid S1 S2))).
      - reflexivity.
      - intros i v Hi ->. rewrite (aval_get _ _ _ _ V1), (aval_get _ _ _ _ V2),
          (aval_get _ _ _ _ V1'), (aval_get _ _ _ _ V2') by lia. cbn [rbind rok].
        unfold dist2. cbn [sum]. f_equal. unfold mid, fdiv. ring.
      - auto. }
    apply rok_inv in R as (v & -> & ->). cbn [rbind].
    eexists. split; [reflexivity|]. rewrite andb_true_iff, !fleb_true.
    rewrite (dist2_sym d T2 T1), (dist2_sym d S2 S1).
    change (sq (dist2 d T1 T2)) with (edist sq d T1 T2). change (sq (dist2 d S1 S2)) with (edist sq d S1 S2).
    change (sq (dist2 d (mid T1 T2) (mid S1 S2))) with (edist sq d (mid T1 T2) (mid S1 S2)).
    replace (fdiv 1 f2 * (edist sq d T1 T2 + edist sq d S1 S2)) with
      (fdiv (edist sq d T1 T2) f2 + fdiv (edist sq d S1 S2) f2) by (unfold fdiv; ring).
    rewrite (sphere_iff d T1 T2 S1 S2 eta He).
    destruct (ball_diam d T1 T2) as [A1 A2], (ball_diam d S1 S2) as [B1 B2], (ball_dist d T1 T2 S1 S2) as [C1 C2].
    rewrite <- (sep_iff L (edist sq d) eta _ _ _ _ _ He A1 A2 C1 C2).
    rewrite <- (sep_iff L (edist sq d) eta _ _ _ _ _ He B1 B2 C1 C2). tauto.
  Qed.

  (** Spheres are larger than boxes. *)
  Lemma sphere_box d T1 T2 S1 S2 eta :
    (forall j, (j < d)%nat -> fle (T1 j) (T2 j)) -> (forall j, (j < d)%nat -> fle (S1 j) (S2 j)) ->
    separated (edist sq d) eta (in_ball sq d T1 T2) (in_ball sq d S1 S2) (in_ball sq d T1 T2) /\
    separated (edist sq d) eta (in_ball sq d T1 T2) (in_ball sq d S1 S2) (in_ball sq d S1 S2) ->
    separated (edist sq d) eta (in_box d T1 T2) (in_box d S1 S2) (in_box d T1 T2) /\
    separated (edist sq d) eta (in_box d T1 T2) (in_box d S1 S2) (in_box d S1 S2).
  Proof.
    intros H H' [A B]. split; intros p q x x' Pp Qq Rx Rx'; [apply A|apply B]; apply box_in_ball; assumption.
  Qed.
End Sphere.
