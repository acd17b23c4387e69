(** * Finite elements: the geometry for clustering *)
From Coq Require Import Arith Lia List Bool.
From Verif Require Import Fld Ord Prog Arr HmSpec Tri2d Tri2dSpec Tri2dP Tri2dP2 Tri2dP3 Cluster ClusterSpec ClusterP PropCluster
  Fem FemSpec FemP FemP3 Fem2 Fem2Spec.
Import ListNotations.
Local Open Scope nat_scope.

Section Range.
  Context {K : ofops} (O : order_laws K).
  Lemma range_ext (R R' : nat -> Prop) (h : nat -> K) lo hi : (forall v, R v <-> R' v) -> range R h lo hi -> range R' h lo hi.
  Proof.
    intros E (A & (a & Ha & Ea) & (b & Hb & Eb)). split; [intros v Hv; apply A, E, Hv|]. split; [exists a|exists b]; split; try apply E; assumption.
  Qed.
  Lemma range_one (h : nat -> K) u : range (fun v => v = u) h (h u) (h u).
  Proof. split; [intros v ->; split; apply (ole_refl O)|]. split; exists u; auto. Qed.
  Lemma fmin3_le (x y z : K) : fle (fmin3 x y z) x /\ fle (fmin3 x y z) y /\ fle (fmin3 x y z) z.
  Proof.
    unfold fmin3. destruct (flt x y) eqn:A.
    - destruct (flt z x) eqn:B.
      + pose proof (olt_le O _ _ B). split; [assumption|]. split; [|apply (ole_refl O)].
        eapply (ole_trans O); [eassumption|apply (olt_le O); exact A].
      + split; [apply (ole_refl O)|]. split; [apply (olt_le O); exact A|exact B].
    - destruct (flt z y) eqn:B.
      + pose proof (olt_le O _ _ B). split; [eapply (ole_trans O); [eassumption|exact A]|]. split; [assumption|apply (ole_refl O)].
      + split; [exact A|]. split; [apply (ole_refl O)|exact B].
  Qed.
  Lemma fmax3_ge (x y z : K) : fle x (fmax3 x y z) /\ fle y (fmax3 x y z) /\ fle z (fmax3 x y z).
  Proof.
    unfold fmax3. destruct (flt x y) eqn:A.
    - destruct (flt y z) eqn:B.
      + pose proof (olt_le O _ _ B). split; [eapply (ole_trans O); [apply (olt_le O); exact A|assumption]|].
        split; [assumption|apply (ole_refl O)].
      + split; [apply (olt_le O); exact A|]. split; [apply (ole_refl O)|exact B].
    - destruct (flt x z) eqn:B.
      + pose proof (olt_le O _ _ B). split; [assumption|]. split; [eapply (ole_trans O); [exact A|assumption]|apply (ole_refl O)].
      + split; [apply (ole_refl O)|]. split; [exact A|exact B].
  Qed.
  Lemma fmin3_att (x y z : K) : fmin3 x y z = x \/ fmin3 x y z = y \/ fmin3 x y z = z.
  Proof. unfold fmin3. destruct (flt x y); [destruct (flt z x)|destruct (flt z y)]; auto. Qed.
  Lemma fmax3_att (x y z : K) : fmax3 x y z = x \/ fmax3 x y z = y \/ fmax3 x y z = z.
  Proof. unfold fmax3. destruct (flt x y); [destruct (flt y z)|destruct (flt x z)]; auto. Qed.
  Lemma range_add (R : nat -> Prop) (h : nat -> K) lo hi v0 v1 v2 : range R h lo hi ->
    range (fun v => R v \/ v = v0 \/ v = v1 \/ v = v2) h (fmin lo (fmin3 (h v0) (h v1) (h v2))) (fmax hi (fmax3 (h v0) (h v1) (h v2))).
  Proof.
    intros (A & (a & Ha & Ea) & (b & Hb & Eb)).
    destruct (fmin3_le (h v0) (h v1) (h v2)) as (M0 & M1 & M2). destruct (fmax3_ge (h v0) (h v1) (h v2)) as (N0 & N1 & N2).
    pose proof (fmin3_att (h v0) (h v1) (h v2)) as M. pose proof (fmax3_att (h v0) (h v1) (h v2)) as N.
    set (m := fmin3 _ _ _) in *. set (n := fmax3 _ _ _) in *.
    pose proof (fmin_l O lo m) as L1. pose proof (fmin_r O lo m) as L2. pose proof (fmax_l O hi n) as U1. pose proof (fmax_r O hi n) as U2.
    split; [|split].
    - intros v [Hv|[->|[->| ->]]].
      + destruct (A v Hv). split; [apply (ole_trans O _ lo _)|apply (ole_trans O _ hi _)]; assumption.
      + split; [apply (ole_trans O _ m _)|apply (ole_trans O _ n _)]; assumption.
      + split; [apply (ole_trans O _ m _)|apply (ole_trans O _ n _)]; assumption.
      + split; [apply (ole_trans O _ m _)|apply (ole_trans O _ n _)]; assumption.
    - unfold fmin. destruct (flt lo m); [exists a; auto|].
      destruct M as [E|[E|E]]; [exists v0|exists v1|exists v2]; auto.
    - unfold fmax. destruct (flt hi n); [|exists b; auto].
      destruct N as [E|[E|E]]; [exists v0|exists v1|exists v2]; auto.
  Qed.
End Range.

Section Geo.
  Context {K : ofops} (O : order_laws K) (dc : tri2dp1 K) (w : mview K) (num : nat -> nat).
  Context (Hs : space_is dc w num) (Hok : mesh_ok w).
  Local Notation n := (p1_ndof dc).

  (** Arrays that have been filled for the free vertices below [i]. *)
  Definition scat {A} (a : arr A) (i : nat) (val : nat -> A) : Prop :=
    exists g, aprt a n (fun r => exists v, v < i /\ isfree w v = true /\ num v = r) g /\
      forall v, v < i -> isfree w v = true -> g (num v) = val v.
  Lemma scat_start {A} (a : arr A) (d : A) val : length a = n -> scat a 0 val.
  Proof. intros E. exists (fun _ => d). split; [|intros; lia]. split; [exact E|]. intros r _ (v & Hv & _). lia. Qed.
  Lemma scat_skip {A} (a : arr A) i val : isfree w i = false -> scat a i val -> scat a (S i) val.
  Proof.
    intros E (g & Hg & HG). exists g. split.
    - eapply aprt_ext; [exact Hg| |reflexivity]. intros r _ (v & Hv & Ev & Er). exists v. split; [|auto].
      assert (v <> i) by congruence. lia.
    - intros v Hv Ev. apply HG; [|exact Ev]. assert (v <> i) by congruence. lia.
  Qed.
  Lemma scat_set {A} (a : arr A) i val x (Q : arr A -> Prop) : i < mV w -> isfree w i = true -> x = val i -> scat a i val ->
    (forall a', scat a' (S i) val -> Q a') -> rok (aset a (num i) x) Q.
  Proof.
    intros Hi E -> (g & Hg & HG) HQ. pose proof (num_free dc w num Hs i Hi E) as N.
    eapply rok_aset_prt; [exact Hg|exact N|]. intros a' Ha'. apply HQ. eexists. split.
    - eapply aprt_ext; [exact Ha'| |reflexivity]. cbv beta. intros r _ (v & Hv & Ev & Er).
      destruct (Nat.eq_dec v i) as [->|Ne]; [left; auto|right; exists v; split; [lia|auto]].
    - intros v Hv Ev. unfold afupd. destruct (Nat.eqb_spec (num v) (num i)) as [En|En].
      + assert (v = i) by (apply (num_inj dc w num Hs); [lia|lia|congruence|exact En]). subst v. reflexivity.
      + apply HG; [|exact Ev]. assert (v <> i) by congruence. lia.
  Qed.
  Lemma scat_end {A} (a : arr A) val : scat a (mV w) val ->
    exists g, aval a n g /\ forall v, v < mV w -> isfree w v = true -> g (num v) = val v.
  Proof.
    intros (g & Hg & HG). exists g. split; [|exact HG]. pose proof Hs as (_ & _ & _ & (_ & _ & Hsur) & _).
    eapply aprt_aval; [|exact Hg]. intros r Hr. destruct (Hsur r Hr) as (v & Hv & Fv & Ev).
    exists v. split; [exact Hv|]. split; [apply Nat.eqb_eq; exact Fv|exact Ev].
  Qed.

  (** Arrays of boxes for the sets [R u]. *)
  Definition boxes (R : nat -> nat -> Prop) (s : arr (arr K) * arr (arr K)) : Prop :=
    exists g1 g2, aval (fst s) n (fun k => row2 (g1 k)) /\ aval (snd s) n (fun k => row2 (g2 k)) /\
      forall u, u < mV w -> isfree w u = true ->
        range (R u) (fun v => fst (mx w v)) (fst (g1 (num u))) (fst (g2 (num u))) /\
        range (R u) (fun v => snd (mx w v)) (snd (g1 (num u))) (snd (g2 (num u))).

  Lemma row2_get (p : K * K) : aget (row2 p) 0 = Ok (fst p) /\ aget (row2 p) 1 = Ok (snd p).
  Proof. split; reflexivity. Qed.
  Lemma get2 s g k : aval s n (fun k => row2 (g k)) -> k < n -> aget2 s k 0 = Ok (fst (g k : K * K)) /\ aget2 s k 1 = Ok (snd (g k)).
  Proof. intros H Hk. unfold aget2. rewrite (aval_get _ _ _ _ H) by exact Hk. cbn [rbind]. apply row2_get. Qed.

  Definition sofar (d : nat) (u v : nat) : Prop := v = u \/ exists j, j < d /\ corner w j u /\ corner w j v.

  Lemma run_boxes s : boxes (sofar 0) s ->
    rok (rfor 0 (t2_triangles (p1_t2 dc)) (fun i s =>
      let* v := getvertices_tri2d (p1_t2 dc) i in
      let* p0 := aget (t2_x (p1_t2 dc)) (at3 v 0) in
      let* p1 := aget (t2_x (p1_t2 dc)) (at3 v 1) in
      let* p2 := aget (t2_x (p1_t2 dc)) (at3 v 2) in
      let mn := (fmin3 (fst p0) (fst p1) (fst p2), fmin3 (snd p0) (snd p1) (snd p2)) in
      let mx := (fmax3 (fst p0) (fst p1) (fst p2), fmax3 (snd p0) (snd p1) (snd p2)) in
      rfor 0 3 (fun j s => when_dof dc true (at3 v j) (fun k '(s1, s2) =>
        let* a0 := aget2 s1 k 0 in
        let* a1 := aget2 s1 k 1 in
        let* s1 := aset s1 k (row2 (fmin a0 (fst mn), fmin a1 (snd mn))) in
        let* b0 := aget2 s2 k 0 in
        let* b1 := aget2 s2 k 1 in
        let* s2 := aset s2 k (row2 (fmax b0 (fst mx), fmax b1 (snd mx))) in
        Ok (s1, s2)) s) s) s) (boxes (sofar (mT w))).
  Proof.
    intros H0. pose proof Hs as (Hm & Hd & Hi & _). pose proof Hm as (EV & EE & ET & Ax & _). rewrite ET.
    apply (rok_for (fun d s => boxes (sofar d) s)); [exact H0| |auto].
    intros d s1 Hdd H1. destruct (proj1 (proj2 Hok) d ltac:(lia)) as (v0 & v1 & v2 & C).
    rewrite (getvertices_run _ _ Hm d v0 v1 v2 ltac:(lia) C). cbn [rbind at3 fst snd].
    destruct (corners_lt w Hok _ _ _ _ C) as (B0 & B1 & B2).
    rewrite !(aval_get _ _ _ _ Ax) by assumption. cbn [rbind]. cbv zeta.
    assert (HC : forall v, corner w d v <-> v = v0 \/ v = v1 \/ v = v2) by (intros v; apply corner_iff; exact C).
    assert (NE : v0 <> v1 /\ v1 <> v2 /\ v2 <> v0) by (destruct C as (A & B & D & _); auto).
    set (xt := (v0, v1, v2)).
    set (Rj := fun j u v => sofar d u v \/ (exists k, k < j /\ at3 xt k = u) /\ corner w d v).
    assert (NX : forall a b, a < 3 -> b < 3 -> at3 xt a = at3 xt b -> a = b).
    { intros [|[|[|a]]] [|[|[|b]]] Ha Hb; try lia; cbn; intros; intuition congruence. }
    apply (rok_for (fun j s => boxes (Rj j) s)).
    - destruct H1 as (g1 & g2 & A & B & G). exists g1, g2. split; [exact A|]. split; [exact B|]. intros u Hu Fu.
      destruct (G u Hu Fu) as [G1 G2].
      assert (E : forall v, sofar d u v <-> Rj 0 u v) by (intros v; split; [left; assumption|intros [X|[(k & Hk & _) _]]; [exact X|lia]]).
      split; eapply range_ext; try exact E; assumption.
    - intros j s2 Hj (g1 & g2 & A & B & G). unfold when_dof.
      assert (Hlt : at3 xt j < mV w) by (destruct j as [|[|[|j]]]; try lia; assumption).
      rewrite (aval_get _ _ _ _ Hd) by exact Hlt. cbn [rbind]. fold (isfree w (at3 xt j)).
      destruct (isfree w (at3 xt j)) eqn:E; cbn [Bool.eqb].
      + rewrite (aval_get _ _ _ _ Hi) by exact Hlt. cbn [rbind]. destruct s2 as [s21 s22]. cbn [fst snd] in A, B.
        pose proof (num_free dc w num Hs _ Hlt E) as N.
        destruct (get2 _ _ _ A N) as [-> ->]. cbn [rbind].
        apply rok_bind. eapply rok_aset; [exact A|exact N|]. intros s1' A'.
        destruct (get2 _ _ _ B N) as [-> ->]. cbn [rbind].
        apply rok_bind. eapply rok_aset; [exact B|exact N|]. intros s2' B'. cbn [rok].
        set (q1 := (fmin (fst (g1 (num (at3 xt j)))) (fmin3 (fst (mx w v0)) (fst (mx w v1)) (fst (mx w v2))),
                    fmin (snd (g1 (num (at3 xt j)))) (fmin3 (snd (mx w v0)) (snd (mx w v1)) (snd (mx w v2))))) in *.
        set (q2 := (fmax (fst (g2 (num (at3 xt j)))) (fmax3 (fst (mx w v0)) (fst (mx w v1)) (fst (mx w v2))),
                    fmax (snd (g2 (num (at3 xt j)))) (fmax3 (snd (mx w v0)) (snd (mx w v1)) (snd (mx w v2))))) in *.
        exists (afupd g1 (num (at3 xt j)) q1), (afupd g2 (num (at3 xt j)) q2). cbn [fst snd].
        split; [eapply aval_ext; [exact A'|]; intros i _; unfold afupd; destruct (i =? _); reflexivity|].
        split; [eapply aval_ext; [exact B'|]; intros i _; unfold afupd; destruct (i =? _); reflexivity|].
        intros u Hu Fu. unfold afupd. destruct (Nat.eqb_spec (num u) (num (at3 xt j))) as [En|En].
        * assert (u = at3 xt j) by (apply (num_inj dc w num Hs); [exact Hu|exact Hlt|congruence|exact En]). subst u.
          destruct (G _ Hlt E) as [G1 G2].
          assert (X : forall v, (Rj j (at3 xt j) v \/ v = v0 \/ v = v1 \/ v = v2) <-> Rj (S j) (at3 xt j) v).
          { intros v. unfold Rj. rewrite (HC v). split.
            - intros [[X|[_ X]]|X]; [left; exact X|right|right]; (split; [exists j; split; [lia|reflexivity]|exact X]).
            - intros [X|[_ X]]; [left; left; exact X|right; exact X]. }
          split; (eapply range_ext; [exact X|]); unfold q1, q2; cbn [fst snd].
          -- apply (range_add O (Rj j (at3 xt j)) (fun v => fst (mx w v))). exact G1.
          -- apply (range_add O (Rj j (at3 xt j)) (fun v => snd (mx w v))). exact G2.
        * assert (u <> at3 xt j) by congruence. destruct (G u Hu Fu) as [G1 G2].
          assert (X : forall v, Rj j u v <-> Rj (S j) u v).
          { intros v. unfold Rj. split; (intros [X|[(k & Hk & Ek) X]]; [left; exact X|right; split; [|exact X]]);
              exists k; (split; [|exact Ek]); [lia|]. assert (k <> j) by congruence. lia. }
          split; eapply range_ext; try exact X; assumption.
      + cbn [rok]. exists g1, g2. split; [exact A|]. split; [exact B|]. intros u Hu Fu. destruct (G u Hu Fu) as [G1 G2].
        assert (u <> at3 xt j) by congruence.
        assert (X : forall v, Rj j u v <-> Rj (S j) u v).
        { intros v. unfold Rj. split; (intros [X|[(k & Hk & Ek) X]]; [left; exact X|right; split; [|exact X]]);
            exists k; (split; [|exact Ek]); [lia|]. assert (k <> j) by congruence. lia. }
        split; eapply range_ext; try exact X; assumption.
    - change (0 + 3) with 3. intros s2 (g1 & g2 & A & B & G). exists g1, g2. split; [exact A|]. split; [exact B|].
      intros u Hu Fu. destruct (G u Hu Fu) as [G1 G2].
      assert (X : forall v, Rj 3 u v <-> sofar (S d) u v).
      { intros v. unfold Rj, sofar. split.
        - intros [[->|(j & Hj & Cu & Cv)]|[(k & Hk & Ek) Cv]]; [left; reflexivity|right; exists j; auto|].
          right. exists d. split; [lia|]. split; [|exact Cv]. apply HC. destruct k as [|[|[|k]]]; try lia; cbn in Ek; auto.
        - intros [->|(j & Hj & Cu & Cv)]; [left; left; reflexivity|]. destruct (Nat.eq_dec j d) as [->|Nj].
          + right. split; [|exact Cv]. apply HC in Cu. destruct Cu as [->|[->| ->]]; [exists 0|exists 1|exists 2]; split; try lia; reflexivity.
          + left. right. exists j. split; [lia|auto]. }
      split; eapply range_ext; try exact X; assumption.
  Qed.

  Definition cmp (p : K * K) (j : nat) : K := if j =? 0 then fst p else snd p.
  Lemma row2_val (s : arr (arr K)) g : aval s n (fun k => row2 (g k)) -> row_val s n 2 (fun k => cmp (g k)).
  Proof.
    intros [_ H] k Hk. exists (row2 (g k)). split; [apply H; exact Hk|]. split; [reflexivity|].
    intros [|[|i]] Hi; try lia; reflexivity.
  Qed.

  Lemma run_geometry idx : length idx = n -> 0 < n ->
    rok (build_tri2dp1_clustergeometry dc idx) (fun r => exists X Smin Smax,
      g_dim (fst r) = 2 /\ g_nidx (fst r) = n /\
      input (fst r) (snd r) 0 n X Smin Smax (fun _ => f1) n (fun i => i) /\
      (exists B1 B2, aval (g_hmin (fst r)) 2 B1 /\ aval (g_hmax (fst r)) 2 B2 /\
        forall j, j < 2 -> range (fun k => k < n) (fun k => X k j) (B1 j) (B2 j)) /\
      forall u j, u < mV w -> free w u -> j < 2 ->
        X (num u) j = cmp (mx w u) j /\
        range (sofar (mT w) u) (fun v => cmp (mx w v) j) (Smin (num u) j) (Smax (num u) j)).
  Proof.
    intros Hl Hn. pose proof Hs as (Hm & Hd & Hi & (_ & _ & Hsur) & _). pose proof Hm as (EV & EE & ET & Ax & _).
    unfold build_tri2dp1_clustergeometry. apply rok_bind. rewrite EV.
    apply (rok_for (fun i '(x, s1, s2, idx) => scat x i (fun v => row2 (mx w v)) /\ scat s1 i (fun v => row2 (mx w v)) /\
      scat s2 i (fun v => row2 (mx w v)) /\ scat idx i num)).
    - split; [apply (scat_start _ []); apply repeat_length|]. split; [apply (scat_start _ []); apply repeat_length|].
      split; [apply (scat_start _ []); apply repeat_length|]. apply (scat_start _ 0). exact Hl.
    - intros i [[[x s1] s2] ix] Hin (H1 & H2 & H3 & H4). unfold when_dof.
      rewrite (aval_get _ _ _ _ Hd) by lia. cbn [rbind]. fold (isfree w i).
      destruct (isfree w i) eqn:E; cbn [Bool.eqb].
      + rewrite (aval_get _ _ _ _ Hi) by lia. cbn [rbind]. rewrite (aval_get _ _ _ _ Ax) by lia. cbn [rbind].
        apply rok_bind. apply (scat_set _ i (fun v => row2 (mx w v)) _ _ ltac:(lia) E eq_refl H1). intros x' H1'.
        apply rok_bind. apply (scat_set _ i (fun v => row2 (mx w v)) _ _ ltac:(lia) E eq_refl H2). intros s1' H2'.
        apply rok_bind. apply (scat_set _ i (fun v => row2 (mx w v)) _ _ ltac:(lia) E eq_refl H3). intros s2' H3'.
        apply rok_bind. apply (scat_set _ i num _ _ ltac:(lia) E eq_refl H4). intros ix' H4'. cbn [rok]. auto.
      + cbn [rok]. repeat split; apply scat_skip; assumption.
    - change (0 + mV w) with (mV w). intros [[[x s1] s2] ix] (H1 & H2 & H3 & H4).
      apply scat_end in H1 as (gx & Ax' & Gx). apply scat_end in H2 as (g1 & A1 & G1).
      apply scat_end in H3 as (g2 & A2 & G2). apply scat_end in H4 as (gi & Ai & Gi).
      assert (NUM : forall (g : nat -> arr K), (forall v, v < mV w -> isfree w v = true -> g (num v) = row2 (mx w v)) ->
        exists h, forall r, r < n -> g r = row2 (h r)).
      { intros g Hg. exists (fun r => match g r with [Some a; Some b] => (a, b) | _ => (f0, f0) end).
        intros r Hr. destruct (Hsur r Hr) as (v & Hv & Fv & Ev). rewrite <- Ev. rewrite Hg; [|exact Hv|apply Nat.eqb_eq; exact Fv].
        unfold row2, aof. cbn. reflexivity. }
      destruct (NUM gx Gx) as (hx & Ex). destruct (NUM g1 G1) as (h1 & E1). destruct (NUM g2 G2) as (h2 & E2).
      assert (INJ : forall p q : K * K, row2 p = row2 q -> p = q).
      { intros [a b] [c d] H. unfold row2, aof in H. cbn in H. congruence. }
      assert (VX : forall v, v < mV w -> isfree w v = true -> hx (num v) = mx w v).
      { intros v Hv Fv. apply INJ. rewrite <- Ex, Gx by (try apply (num_free dc w num Hs); assumption). reflexivity. }
      assert (V1 : forall v, v < mV w -> isfree w v = true -> h1 (num v) = mx w v).
      { intros v Hv Fv. apply INJ. rewrite <- E1, G1 by (try apply (num_free dc w num Hs); assumption). reflexivity. }
      assert (V2 : forall v, v < mV w -> isfree w v = true -> h2 (num v) = mx w v).
      { intros v Hv Fv. apply INJ. rewrite <- E2, G2 by (try apply (num_free dc w num Hs); assumption). reflexivity. }
      assert (BX : aval x n (fun k => row2 (hx k))) by (eapply aval_ext; [exact Ax'|exact Ex]).
      assert (BI : aval ix n (fun i => i)).
      { eapply aval_ext; [exact Ai|]. intros r Hr. destruct (Hsur r Hr) as (v & Hv & Fv & Ev). rewrite <- Ev.
        apply Gi; [exact Hv|apply Nat.eqb_eq; exact Fv]. }
      apply rok_bind. eapply rok_conseq; [apply run_boxes|].
      { exists h1, h2. cbn [fst snd]. split; [eapply aval_ext; [exact A1|exact E1]|]. split; [eapply aval_ext; [exact A2|exact E2]|].
        intros u Hu Fu. rewrite V1, V2 by assumption.
        assert (X : forall v, v = u <-> sofar 0 u v) by (intros v; split; [left; assumption|intros [Y|(j & Hj & _)]; [exact Y|lia]]).
        split; (eapply range_ext; [exact X|]).
        - apply (range_one O (fun v => fst (mx w v))).
        - apply (range_one O (fun v => snd (mx w v))). }
      intros [s1' s2'] (k1 & k2 & B1 & B2 & BR). cbn [fst snd] in B1, B2.
      set (cf := CGeom 2 n x s1' s2' (aof (repeat f1 n)) (anew 2) (anew 2)).
      assert (INP : input cf ix 0 n (fun k => cmp (hx k)) (fun k => cmp (k1 k)) (fun k => cmp (k2 k)) (fun _ => f1) n (fun i => i)).
      { constructor; cbn [cf g_dim g_nidx]; try lia; [|exact BI].
        constructor; cbn [cf g_x g_smin g_smax g_w g_hmin g_hmax g_nidx g_dim]; try reflexivity.
        - apply row2_val. exact BX.
        - apply row2_val. exact B1.
        - apply row2_val. exact B2.
        - pose proof (aof_val (repeat (f1 : K) n) f1) as W. rewrite repeat_length in W. eapply aval_ext; [exact W|].
          intros i Hii. cbv beta. destruct (nth_in_or_default i (repeat (f1 : K) n) f1) as [Y|Y]; [|exact Y].
          apply repeat_spec in Y. exact Y. }
      apply rok_bind. eapply rok_conseq; [apply (C06_point_bbox O cf _ _ _ _ ix n _ n 0 INP)|].
      intros cf' (P1 & P2 & Q1 & Q2 & EC & QR). cbn [rok fst snd].
      exists (fun k => cmp (hx k)), (fun k => cmp (k1 k)), (fun k => cmp (k2 k)).
      split; [rewrite EC; reflexivity|]. split; [rewrite EC; reflexivity|]. split; [|split].
      + destruct INP as [G D I R S V]. constructor; try assumption; [|rewrite EC; cbn; lia|rewrite EC; exact V].
        destruct G as [X1 X2 X3 X4 X5 X6]. rewrite EC. constructor; cbn [set_h g_x g_smin g_smax g_w g_hmin g_hmax g_nidx g_dim cf]; try assumption.
        * apply Q1.
        * apply Q2.
      + exists P1, P2. split; [exact Q1|]. split; [exact Q2|]. intros j Hj. destruct (QR j Hj) as (R1 & R2 & R3).
        assert (SL : forall k, In k (slice (fun i => i) 0 n) <-> k < n).
        { intros k. rewrite in_slice. split; [intros (i & Hii & <-); lia|intros Hk; exists k; split; [lia|reflexivity]]. }
        split; [intros k Hk; apply R1, SL, Hk|]. split.
        * destruct R2 as (k & Hk & Ek). exists k. split; [apply SL; exact Hk|exact Ek].
        * destruct R3 as (k & Hk & Ek). exists k. split; [apply SL; exact Hk|exact Ek].
      + intros u j Hu Fu Hj. apply Nat.eqb_eq in Fu. fold (isfree w u) in Fu. destruct (BR u Hu Fu) as [T1 T2].
        split; [unfold cmp; rewrite (VX u Hu Fu); reflexivity|].
        destruct j as [|[|j]]; try lia; unfold cmp; cbn [Nat.eqb]; assumption.
  Qed.
End Geo.
