(** * Krylov methods: Uzawa, BiCG and BiCGStab *)
From Coq Require Import Arith Lia List Bool Ring Field.
From Verif Require Import Fld Prog View Spec Loop Avector AvectorP AmatrixP2 Factor Lr Chol Qr LrP QrP Krylov KrylovSpec KrylovP KrylovP2 KrylovP3.
Import ListNotations.

Section KrylovP4.
Context {K : fops} (L : field_laws K).
Let RL := fl_ring K L.
Add Ring KringK : (rl_ring K (fl_ring K L)).
Add Field KfieldK : (K_field L).
Implicit Types (m : mem K) (F : addr -> Prop).
Notation WP := (wp TT TT).
Notation vect := (nat -> K).

Lemma mvec_comp n k (A B : nat -> nat -> K) (v : vect) i : mvec n A (mvec k B v) i = mvec k (mmul n A B) v i.
Proof.
  unfold mvec, mmul. rewrite (sum_ext n _ (fun j => sum k (fun l => A i j * B j l * v l))%F).
  2:{ intros j Hj. rewrite <- (sum_mul_l RL). apply sum_ext. intros l Hl. ring. }
  rewrite (sum_swap RL). apply sum_ext. intros l Hl. rewrite (sum_mul_r RL). reflexivity.
Qed.
Lemma dot_adj r c (B : nat -> nat -> K) (u v : vect) : dot r (mvec c B u) v = dot c u (mvec r (tr true B) v).
Proof.
  unfold dot, mvec. cbn [tr].
  rewrite (sum_ext r _ (fun i => sum c (fun j => fconj (u j) * (fconj (B i j) * v i)))%F).
  2:{ intros i Hi. rewrite (sum_conj RL), <- (sum_mul_r RL). apply sum_ext. intros j Hj. rewrite (rl_conj_mul K RL). ring. }
  rewrite (sum_swap RL). apply sum_ext. intros j Hj. rewrite (sum_mul_l RL). reflexivity.
Qed.

(** ** Uzawa: the iteration in mathematical terms *)
Section UZ.
Variables n1 n2 : nat.
Variables A11 N11 B : nat -> nat -> K.
Variable pre : vect -> vect.
Notation Bt := (tr true B).
Notation u4 := (vect * vect * vect * vect)%type.
Definition uz0 (b1 b2 y : vect) : u4 :=
  let x1 := mvec n1 N11 (fun i => b1 i + fopp f1 * mvec n2 Bt y i)%F in
  let r := (fun i => mvec n1 B x1 i + fopp f1 * b2 i)%F in (x1, y, r, pre r).
Definition uzn (s : u4) : u4 :=
  let '(x1, x2, r, p) := s in
  let a := mvec n1 N11 (mvec n2 Bt p) in
  let s := mvec n1 B a in
  let g := dot n2 s p in
  let l := (dot n2 p r / g)%F in
  let r' := (fun i => r i + fopp l * s i)%F in
  let mu := (dot n2 s (pre r') / fconj g)%F in
  (fun i => x1 i + fopp l * a i, fun i => x2 i + l * p i, r', fun i => p i * fopp mu + f1 * pre r' i)%F.
Definition uzs b1 b2 y k := Nat.iter k uzn (uz0 b1 b2 y).
Definition u1 b1 b2 y k := fst (fst (fst (uzs b1 b2 y k))).
Definition u2 b1 b2 y k := snd (fst (fst (uzs b1 b2 y k))).
Definition uR b1 b2 y k := snd (fst (uzs b1 b2 y k)).
Definition uP b1 b2 y k := snd (uzs b1 b2 y k).

Lemma uzs_S b1 b2 y k : uzs b1 b2 y (S k) = uzn (u1 b1 b2 y k, u2 b1 b2 y k, uR b1 b2 y k, uP b1 b2 y k).
Proof. unfold u1, u2, uR, uP. rewrite <- !surjective_pairing. reflexivity. Qed.

Definition schur (i j : nat) : K := mmul n1 B (mmul n1 N11 Bt) i j.
Lemma schur_eq (v : vect) i : mvec n1 B (mvec n1 N11 (mvec n2 Bt v)) i = mvec n2 schur v i.
Proof.
  unfold schur. rewrite <- mvec_comp. apply mvec_ext; [auto|]. intros j Hj. apply mvec_comp.
Qed.

Hypothesis HA11 : hermitian n1 A11.
Hypothesis Hinv : forall i j, i < n1 -> j < n1 -> mmul n1 A11 N11 i j = idf i j.

Lemma inv_apply (v : vect) i : i < n1 -> mvec n1 A11 (mvec n1 N11 v) i = v i.
Proof. intros Hi. rewrite mvec_comp. rewrite (mvec_ext n1 _ idf v v); [apply (mvec_id L); exact Hi| |auto]. intros j Hj. apply Hinv; assumption. Qed.

Lemma N11_dot (u v : vect) : dot n1 (mvec n1 N11 u) v = dot n1 u (mvec n1 N11 v).
Proof.
  transitivity (dot n1 (mvec n1 N11 u) (mvec n1 A11 (mvec n1 N11 v))).
  - apply dot_ext'; [auto|]. intros i Hi. symmetry. apply inv_apply. exact Hi.
  - rewrite <- (herm_dot L _ _ _ _ HA11). apply dot_ext'; [|auto]. intros i Hi. apply inv_apply. exact Hi.
Qed.
Lemma schur_dot (u v : vect) : dot n2 (mvec n2 schur u) v = dot n2 u (mvec n2 schur v).
Proof.
  rewrite (dot_ext' n2 _ (mvec n1 B (mvec n1 N11 (mvec n2 Bt u))) v v) by (auto; intros; symmetry; apply schur_eq).
  rewrite (dot_ext' n2 u u (mvec n2 schur v) (mvec n1 B (mvec n1 N11 (mvec n2 Bt v)))) by (auto; intros; symmetry; apply schur_eq).
  rewrite dot_adj, N11_dot, dot_adj. apply dot_ext'; [auto|]. intros i Hi. unfold mvec at 1 4. apply sum_ext. intros j Hj.
  cbn [tr]. rewrite (rl_conj_conj _ RL). reflexivity.
Qed.
Lemma schur_herm : hermitian n2 schur.
Proof.
  intros i j Hi Hj. assert (E := schur_dot (idf i) (idf j)).
  assert (E1 : forall (f : vect) l, l < n2 -> dot n2 f (idf l) = fconj (f l)).
  { intros f l Hl. unfold dot. rewrite (sum_single RL n2 l); [unfold idf; rewrite Nat.eqb_refl; ring|exact Hl|].
    intros k Hk N. unfold idf. destruct (Nat.eqb_spec l k); [congruence|ring]. }
  assert (E2 : forall l k, l < n2 -> k < n2 -> mvec n2 schur (idf l) k = schur k l).
  { intros l k Hl Hk. unfold mvec. rewrite (sum_single RL n2 l); [unfold idf; rewrite Nat.eqb_refl; ring|exact Hl|].
    intros q Hq N. unfold idf. destruct (Nat.eqb_spec l q); [congruence|ring]. }
  rewrite E1 in E by exact Hj. rewrite (dot_swap L), E1, (rl_conj_conj _ RL) in E by exact Hi. rewrite !E2 in E by assumption. symmetry. exact E.
Qed.

Section Facts.
Variables b1 b2 y : vect.
Notation X1 := (u1 b1 b2 y). Notation X2 := (u2 b1 b2 y). Notation R := (uR b1 b2 y). Notation P := (uP b1 b2 y).
Notation Q := (fun k => pre (R k)).
Definition ug k : K := dot n2 (mvec n1 B (mvec n1 N11 (mvec n2 Bt (P k)))) (P k).
Definition ul k : K := (dot n2 (P k) (R k) / ug k)%F.
Lemma ug_eq k : ug k = gam n2 schur P k.
Proof.
  unfold ug, gam. rewrite <- schur_dot. apply dot_ext'; [|auto]. intros i Hi. apply schur_eq.
Qed.
Lemma ul_eq k : ul k = lam n2 schur R P k.
Proof. unfold ul, lam. rewrite ug_eq. reflexivity. Qed.
Lemma ug_real k : fconj (ug k) = ug k.
Proof. rewrite ug_eq. unfold gam. rewrite <- (dot_swap L). apply schur_dot. Qed.

Lemma uz_X1 k i : X1 (S k) i = (X1 k i - ul k * mvec n1 N11 (mvec n2 Bt (P k)) i)%F.
Proof. unfold u1 at 1. rewrite uzs_S. cbn [uzn fst snd]. unfold ul, ug. ring. Qed.
Lemma uz_X2 k i : X2 (S k) i = (X2 k i + ul k * P k i)%F.
Proof. unfold u2 at 1. rewrite uzs_S. reflexivity. Qed.
Lemma uz_R' k i : R (S k) i = (R k i - ul k * mvec n1 B (mvec n1 N11 (mvec n2 Bt (P k))) i)%F.
Proof. unfold uR at 1. rewrite uzs_S. cbn [uzn fst snd]. unfold ul, ug. ring. Qed.
Lemma uz_R k i : i < n2 -> R (S k) i = (R k i - lam n2 schur R P k * mvec n2 schur (P k) i)%F.
Proof. intros _. rewrite uz_R', ul_eq, schur_eq. reflexivity. Qed.
Lemma uz_P k i : i < n2 -> P (S k) i = (Q (S k) i - muc n2 schur P Q k * P k i)%F.
Proof.
  intros _. unfold muc. rewrite <- ug_eq.
  rewrite (dot_ext' n2 (mvec n2 schur (P k)) (mvec n1 B (mvec n1 N11 (mvec n2 Bt (P k)))) _ (pre (R (S k))))
    by (auto; intros; symmetry; apply schur_eq).
  rewrite <- ug_real. unfold uP at 1. unfold uR at 1 2. rewrite !uzs_S. cbn [uzn fst snd]. unfold ug. ring.
Qed.

(** The first block row of the saddle point problem is always solved exactly, and [R] is the
    residual of the second. *)
Lemma uz_row1 k i : i < n1 -> (mvec n1 A11 (X1 k) i + mvec n2 Bt (X2 k) i)%F = b1 i.
Proof.
  revert i. induction k as [|k IH]; intros i Hi.
  - cbn. rewrite inv_apply by exact Hi. cbn [tr]. ring.
  - rewrite (mvec_ext n1 A11 A11 (X1 (S k)) (fun j => X1 k j - ul k * mvec n1 N11 (mvec n2 Bt (P k)) j)%F) by (auto; intros; apply uz_X1).
    rewrite (mvec_ext n2 Bt Bt (X2 (S k)) (fun j => X2 k j + ul k * P k j)%F) by (auto; intros; apply uz_X2).
    rewrite (mvec_sub L), (mvec_add L), inv_apply, <- (IH i Hi) by exact Hi. ring.
Qed.
Lemma uz_row2 k i : R k i = (mvec n1 B (X1 k) i - b2 i)%F.
Proof.
  revert i. induction k as [|k IH]; intros i; [cbn; ring|].
  rewrite uz_R', IH.
  rewrite (mvec_ext n1 B B (X1 (S k)) (fun j => X1 k j - ul k * mvec n1 N11 (mvec n2 Bt (P k)) j)%F) by (auto; intros; apply uz_X1).
  rewrite (mvec_sub L). ring.
Qed.
End Facts.
End UZ.

(** ** Preconditioned Uzawa *)
Section PUZ.
Variables (solve : prcd_t K) (mvm : mvm_t K) (pc : option (prcd_t K)).
Variables (n1 n2 : nat) (N11 B N : nat -> nat -> K) (F : addr -> Prop) (I : mem K -> Prop).
Let evF : addeval_t K := fun al u v => mvm al false u v.
Let evT : addeval_t K := fun al u v => mvm al true u v.
Hypothesis Hsol : pc_ok solve n1 N11 F I.
Hypothesis HevF : op_ok evF n2 n1 B F I.
Hypothesis HevT : op_ok evT n1 n2 (tr true B) F I.
Hypothesis Hpc : prcd_ok pc n2 N F I.
Variables b1 b2 x1 x2 r2 q2 p2 a1 s2 : vec.
Notation vs := [b1; b2; x1; x2; r2; q2; p2; a1; s2].
Hypothesis Hsep : separate F vs.
Hypothesis Hdim1 : Forall (fun v => vdim v = n1) [b1; x1; a1].
Hypothesis Hdim2 : Forall (fun v => vdim v = n2) [b2; x2; r2; q2; p2; s2].
Let Ikeep := op_keep _ _ _ _ _ _ HevF.
Notation U f := (f n1 n2 N11 B (mvec n2 N)).

Lemma w_init_puzawa m0 m g1 g2 y o1 o2 o3 o4 o5 o6 (Q : unit -> mem K -> Prop) :
  vst I m0 vs m [Some g1; Some g2; o1; Some y; o2; o3; o4; o5; o6] ->
  (forall m', vst I m0 vs m' [Some g1; Some g2; Some (U u1 g1 g2 y 0); Some (U u2 g1 g2 y 0); Some (U uR g1 g2 y 0);
     Some (mvec n2 N (U uR g1 g2 y 0)); Some (U uP g1 g2 y 0); o5; o6] -> Q tt m') ->
  WP (init_puzawa solve mvm pc b1 b2 x1 x2 r2 q2 p2 a1 s2) m Q.
Proof.
  intros Hst HQ. repeat (apply Forall_cons_iff in Hdim1 as [? Hdim1]). repeat (apply Forall_cons_iff in Hdim2 as [? Hdim2]).
  unfold init_puzawa. change (mvm (fopp f1) true x2 x1) with (evT (fopp f1) x2 x1). change (mvm f1 false x1 r2) with (evF f1 x1 r2).
  apply wp_bind. wcopy Ikeep Hsep m Hst 0 2.
  apply wp_bind. wev Ikeep Hsep m Hst HevT 3 2.
  apply wp_bind. wpc Ikeep Hsep m Hst Hsol 2.
  wev0 RL Ikeep Hsep m Hst HevF 2 4.
  apply wp_bind. wadd Ikeep Hsep m Hst 1 4.
  apply wp_bind. wcopy Ikeep Hsep m Hst 4 5.
  apply wp_bind. wmay RL Ikeep Hsep m Hst Hpc 5.
  wcopy Ikeep Hsep m Hst 5 6.
  apply HQ. exact Hst.
Qed.

Lemma w_step_puzawa m0 m g1 g2 y k o3 o5 o6 (Q : unit -> mem K -> Prop) :
  vst I m0 vs m [Some g1; Some g2; Some (U u1 g1 g2 y k); Some (U u2 g1 g2 y k); Some (U uR g1 g2 y k); o3;
     Some (U uP g1 g2 y k); o5; o6] ->
  (forall m' o5 o6, vst I m0 vs m' [Some g1; Some g2; Some (U u1 g1 g2 y (S k)); Some (U u2 g1 g2 y (S k)); Some (U uR g1 g2 y (S k));
     Some (mvec n2 N (U uR g1 g2 y (S k))); Some (U uP g1 g2 y (S k)); o5; o6] -> Q tt m') ->
  WP (step_puzawa solve mvm pc b1 b2 x1 x2 r2 q2 p2 a1 s2) m Q.
Proof.
  intros Hst HQ. repeat (apply Forall_cons_iff in Hdim1 as [? Hdim1]). repeat (apply Forall_cons_iff in Hdim2 as [? Hdim2]).
  unfold step_puzawa. change (mvm f1 true p2 a1) with (evT f1 p2 a1). change (mvm f1 false a1 s2) with (evF f1 a1 s2).
  wev0 RL Ikeep Hsep m Hst HevT 6 7.
  apply wp_bind. wpc Ikeep Hsep m Hst Hsol 7.
  wev0 RL Ikeep Hsep m Hst HevF 7 8.
  apply wp_bind. wdot n2 m Hst 8 6.
  apply wp_bind. wdot n2 m Hst 6 4.
  apply wp_bind. wadd Ikeep Hsep m Hst 6 3.
  apply wp_bind. wadd Ikeep Hsep m Hst 8 4.
  apply wp_bind. wcopy Ikeep Hsep m Hst 4 5.
  apply wp_bind. wmay RL Ikeep Hsep m Hst Hpc 5.
  apply wp_bind. wadd Ikeep Hsep m Hst 7 2.
  apply wp_bind. wdot n2 m Hst 8 5.
  apply wp_bind. wscale Ikeep Hsep m Hst 6.
  wadd Ikeep Hsep m Hst 5 6.
  eapply HQ. unfold u1, u2, uR, uP in *. rewrite !uzs_S. exact Hst.
Qed.

Lemma w_puzawa m0 m g1 g2 y k o1 o2 o3 o4 o5 o6 (Q : unit -> mem K -> Prop) :
  vst I m0 vs m [Some g1; Some g2; o1; Some y; o2; o3; o4; o5; o6] ->
  (forall m' o5 o6, vst I m0 vs m' [Some g1; Some g2; Some (U u1 g1 g2 y k); Some (U u2 g1 g2 y k); Some (U uR g1 g2 y k);
     Some (mvec n2 N (U uR g1 g2 y k)); Some (U uP g1 g2 y k); o5; o6] -> Q tt m') ->
  WP (init_puzawa solve mvm pc b1 b2 x1 x2 r2 q2 p2 a1 s2 ;;; times k (step_puzawa solve mvm pc b1 b2 x1 x2 r2 q2 p2 a1 s2)) m Q.
Proof.
  intros Hst HQ. apply wp_bind. eapply w_init_puzawa; [exact Hst|]. clear m Hst. intros m Hst. revert Q HQ.
  induction k as [|k IH]; intros Q HQ; cbn [times].
  - eapply HQ. exact Hst.
  - apply wp_bind. apply IH. intros m' o5' o6' Hst'. eapply w_step_puzawa; [exact Hst'|]. intros m2 o5'' o6'' Hst2. eapply HQ. exact Hst2.
Qed.
End PUZ.

(** ** Uzawa without a preconditioner *)
Section UZW.
Variables (solve : prcd_t K) (mvm : mvm_t K).
Variables (n1 n2 : nat) (N11 B : nat -> nat -> K) (F : addr -> Prop) (I : mem K -> Prop).
Let evF : addeval_t K := fun al u v => mvm al false u v.
Let evT : addeval_t K := fun al u v => mvm al true u v.
Hypothesis Hsol : pc_ok solve n1 N11 F I.
Hypothesis HevF : op_ok evF n2 n1 B F I.
Hypothesis HevT : op_ok evT n1 n2 (tr true B) F I.
Variables b1 b2 x1 x2 r2 p2 a1 s2 : vec.
Notation vs := [b1; b2; x1; x2; r2; p2; a1; s2].
Hypothesis Hsep : separate F vs.
Hypothesis Hdim1 : Forall (fun v => vdim v = n1) [b1; x1; a1].
Hypothesis Hdim2 : Forall (fun v => vdim v = n2) [b2; x2; r2; p2; s2].
Let Ikeep := op_keep _ _ _ _ _ _ HevF.
Notation U f := (f n1 n2 N11 B (fun v : vect => v)).

Lemma w_init_uzawa m0 m g1 g2 y o1 o2 o4 o5 o6 (Q : unit -> mem K -> Prop) :
  vst I m0 vs m [Some g1; Some g2; o1; Some y; o2; o4; o5; o6] ->
  (forall m', vst I m0 vs m' [Some g1; Some g2; Some (U u1 g1 g2 y 0); Some (U u2 g1 g2 y 0); Some (U uR g1 g2 y 0);
     Some (U uP g1 g2 y 0); o5; o6] -> Q tt m') ->
  WP (init_uzawa solve mvm b1 b2 x1 x2 r2 p2 a1 s2) m Q.
Proof.
  intros Hst HQ. repeat (apply Forall_cons_iff in Hdim1 as [? Hdim1]). repeat (apply Forall_cons_iff in Hdim2 as [? Hdim2]).
  unfold init_uzawa. change (mvm (fopp f1) true x2 x1) with (evT (fopp f1) x2 x1). change (mvm f1 false x1 r2) with (evF f1 x1 r2).
  apply wp_bind. wcopy Ikeep Hsep m Hst 0 2.
  apply wp_bind. wev Ikeep Hsep m Hst HevT 3 2.
  apply wp_bind. wpc Ikeep Hsep m Hst Hsol 2.
  wev0 RL Ikeep Hsep m Hst HevF 2 4.
  apply wp_bind. wadd Ikeep Hsep m Hst 1 4.
  wcopy Ikeep Hsep m Hst 4 5.
  apply HQ. exact Hst.
Qed.

Lemma w_step_uzawa m0 m g1 g2 y k o5 o6 (Q : unit -> mem K -> Prop) :
  vst I m0 vs m [Some g1; Some g2; Some (U u1 g1 g2 y k); Some (U u2 g1 g2 y k); Some (U uR g1 g2 y k);
     Some (U uP g1 g2 y k); o5; o6] ->
  (forall m' o5 o6, vst I m0 vs m' [Some g1; Some g2; Some (U u1 g1 g2 y (S k)); Some (U u2 g1 g2 y (S k)); Some (U uR g1 g2 y (S k));
     Some (U uP g1 g2 y (S k)); o5; o6] -> Q tt m') ->
  WP (step_uzawa solve mvm b1 b2 x1 x2 r2 p2 a1 s2) m Q.
Proof.
  intros Hst HQ. repeat (apply Forall_cons_iff in Hdim1 as [? Hdim1]). repeat (apply Forall_cons_iff in Hdim2 as [? Hdim2]).
  unfold step_uzawa. change (mvm f1 true p2 a1) with (evT f1 p2 a1). change (mvm f1 false a1 s2) with (evF f1 a1 s2).
  wev0 RL Ikeep Hsep m Hst HevT 5 6.
  apply wp_bind. wpc Ikeep Hsep m Hst Hsol 6.
  wev0 RL Ikeep Hsep m Hst HevF 6 7.
  apply wp_bind. wdot n2 m Hst 7 5.
  apply wp_bind. wdot n2 m Hst 5 4.
  apply wp_bind. wadd Ikeep Hsep m Hst 5 3.
  apply wp_bind. wadd Ikeep Hsep m Hst 7 4.
  apply wp_bind. wadd Ikeep Hsep m Hst 6 2.
  apply wp_bind. wdot n2 m Hst 7 4.
  apply wp_bind. wscale Ikeep Hsep m Hst 5.
  wadd Ikeep Hsep m Hst 4 5.
  eapply HQ. unfold u1, u2, uR, uP in *. rewrite !uzs_S. exact Hst.
Qed.

Lemma w_uzawa m0 m g1 g2 y k o1 o2 o4 o5 o6 (Q : unit -> mem K -> Prop) :
  vst I m0 vs m [Some g1; Some g2; o1; Some y; o2; o4; o5; o6] ->
  (forall m' o5 o6, vst I m0 vs m' [Some g1; Some g2; Some (U u1 g1 g2 y k); Some (U u2 g1 g2 y k); Some (U uR g1 g2 y k);
     Some (U uP g1 g2 y k); o5; o6] -> Q tt m') ->
  WP (init_uzawa solve mvm b1 b2 x1 x2 r2 p2 a1 s2 ;;; times k (step_uzawa solve mvm b1 b2 x1 x2 r2 p2 a1 s2)) m Q.
Proof.
  intros Hst HQ. apply wp_bind. eapply w_init_uzawa; [exact Hst|]. clear m Hst. intros m Hst. revert Q HQ.
  induction k as [|k IH]; intros Q HQ; cbn [times].
  - eapply HQ. exact Hst.
  - apply wp_bind. apply IH. intros m' o5' o6' Hst'. eapply w_step_uzawa; [exact Hst'|]. intros m2 o5'' o6'' Hst2. eapply HQ. exact Hst2.
Qed.
End UZW.

(** ** BiCG *)
Section BICG.
Variables (ev evt : addeval_t K).
Variables (n : nat) (A : nat -> nat -> K) (F : addr -> Prop) (I : mem K -> Prop).
Hypothesis Hev : op_ok ev n n A F I.
Hypothesis Hevt : op_ok evt n n (tr true A) F I.
Variables b x r rt p pt a at_ : vec.
Notation vs := [b; x; r; rt; p; pt; a; at_].
Hypothesis Hsep : separate F vs.
Hypothesis Hdim : Forall (fun v => vdim v = n) vs.
Let Ikeep := op_keep _ _ _ _ _ _ Hev.
Notation At := (tr true A).

Notation u5 := (vect * vect * vect * vect * vect)%type.
Definition bi0 (bf xf : vect) : u5 :=
  let r := (fun i => bf i + fopp f1 * mvec n A xf i)%F in (xf, r, r, r, r).
Definition bin (s : u5) : u5 :=
  let '(x, r, rt, p, pt) := s in
  let a := mvec n A p in
  let at_ := mvec n At pt in
  let mu := dot n r rt in
  let al := (mu / dot n a pt)%F in
  let r' := (fun i => r i + fopp al * a i)%F in
  let rt' := (fun i => rt i + fopp al * at_ i)%F in
  let be := (dot n r' rt' / mu)%F in
  (fun i => x i + al * p i, r', rt', fun i => p i * be + f1 * r' i, fun i => pt i * be + f1 * rt' i)%F.
Definition bis bf xf k := Nat.iter k bin (bi0 bf xf).
Definition bX bf xf k := fst (fst (fst (fst (bis bf xf k)))).
Definition bR bf xf k := snd (fst (fst (fst (bis bf xf k)))).
Definition bRt bf xf k := snd (fst (fst (bis bf xf k))).
Definition bP bf xf k := snd (fst (bis bf xf k)).
Definition bPt bf xf k := snd (bis bf xf k).
Lemma bis_S bf xf k : bis bf xf (S k) = bin (bX bf xf k, bR bf xf k, bRt bf xf k, bP bf xf k, bPt bf xf k).
Proof. unfold bX, bR, bRt, bP, bPt. rewrite <- !surjective_pairing. reflexivity. Qed.

Section Facts.
Variables bf xf : vect.
Notation X := (bX bf xf). Notation R := (bR bf xf). Notation Rt := (bRt bf xf). Notation P := (bP bf xf). Notation Pt := (bPt bf xf).
Notation al := (bal n A R Rt P Pt). Notation be := (bbe n R Rt).
Lemma bi_X k i : X (S k) i = (X k i + al k * P k i)%F.
Proof. unfold bX at 1. rewrite bis_S. reflexivity. Qed.
Lemma bi_R k i : R (S k) i = (R k i - al k * mvec n A (P k) i)%F.
Proof. unfold bR at 1. rewrite bis_S. cbn [bin fst snd]. unfold bal, bmu, bgam. ring. Qed.
Lemma bi_Rt k i : Rt (S k) i = (Rt k i - al k * mvec n At (Pt k) i)%F.
Proof. unfold bRt at 1. rewrite bis_S. cbn [bin fst snd]. unfold bal, bmu, bgam. ring. Qed.
Lemma bi_P k i : P (S k) i = (R (S k) i + be k * P k i)%F.
Proof. unfold bbe, bmu. unfold bP at 1. unfold bR at 1 2. unfold bRt at 1. rewrite !bis_S. cbn [bin fst snd]. ring. Qed.
Lemma bi_Pt k i : Pt (S k) i = (Rt (S k) i + be k * Pt k i)%F.
Proof. unfold bbe, bmu. unfold bPt at 1. unfold bR at 1. unfold bRt at 1 2. rewrite !bis_S. cbn [bin fst snd]. ring. Qed.
Lemma bi_res k i : i < n -> R k i = (bf i - mvec n A (X k) i)%F.
Proof.
  revert i. induction k as [|k IH]; intros i Hi; [cbn; ring|].
  rewrite bi_R, IH by exact Hi. rewrite (mvec_ext n A A (X (S k)) (fun j => X k j + al k * P k j)%F) by (auto; intros; apply bi_X).
  rewrite (mvec_add L). ring.
Qed.
End Facts.

Lemma w_init_bicg m0 m bf xf o1 o2 o3 o4 o5 o6 (Q : unit -> mem K -> Prop) :
  vst I m0 vs m [Some bf; Some xf; o1; o2; o3; o4; o5; o6] ->
  (forall m', vst I m0 vs m' [Some bf; Some (bX bf xf 0); Some (bR bf xf 0); Some (bRt bf xf 0); Some (bP bf xf 0); Some (bPt bf xf 0); o5; o6] -> Q tt m') ->
  WP (init_bicg ev evt b x r rt p pt a at_) m Q.
Proof.
  intros Hst HQ. repeat (apply Forall_cons_iff in Hdim as [? Hdim]). unfold init_bicg.
  apply wp_bind. wcopy Ikeep Hsep m Hst 0 2.
  apply wp_bind. wev Ikeep Hsep m Hst Hev 1 2.
  apply wp_bind. wcopy Ikeep Hsep m Hst 2 3.
  apply wp_bind. wcopy Ikeep Hsep m Hst 2 4.
  wcopy Ikeep Hsep m Hst 3 5. apply HQ. exact Hst.
Qed.
Lemma w_step_bicg m0 m bf xf k o5 o6 (Q : unit -> mem K -> Prop) :
  vst I m0 vs m [Some bf; Some (bX bf xf k); Some (bR bf xf k); Some (bRt bf xf k); Some (bP bf xf k); Some (bPt bf xf k); o5; o6] ->
  (forall m' o5 o6, vst I m0 vs m' [Some bf; Some (bX bf xf (S k)); Some (bR bf xf (S k)); Some (bRt bf xf (S k)); Some (bP bf xf (S k)); Some (bPt bf xf (S k)); o5; o6] -> Q tt m') ->
  WP (step_bicg ev evt b x r rt p pt a at_) m Q.
Proof.
  intros Hst HQ. repeat (apply Forall_cons_iff in Hdim as [? Hdim]). unfold step_bicg.
  wev0 RL Ikeep Hsep m Hst Hev 4 6.
  wev0 RL Ikeep Hsep m Hst Hevt 5 7.
  apply wp_bind. wdot n m Hst 6 5.
  apply wp_bind. wdot n m Hst 2 3.
  apply wp_bind. wadd Ikeep Hsep m Hst 4 1.
  apply wp_bind. wadd Ikeep Hsep m Hst 6 2.
  apply wp_bind. wadd Ikeep Hsep m Hst 7 3.
  apply wp_bind. wdot n m Hst 2 3.
  apply wp_bind. wscale Ikeep Hsep m Hst 4.
  apply wp_bind. wadd Ikeep Hsep m Hst 2 4.
  apply wp_bind. wscale Ikeep Hsep m Hst 5.
  wadd Ikeep Hsep m Hst 3 5.
  eapply HQ. unfold bX, bR, bRt, bP, bPt in *. rewrite !bis_S. exact Hst.
Qed.
Lemma w_bicg m0 m bf xf k o1 o2 o3 o4 o5 o6 (Q : unit -> mem K -> Prop) :
  vst I m0 vs m [Some bf; Some xf; o1; o2; o3; o4; o5; o6] ->
  (forall m' o5 o6, vst I m0 vs m' [Some bf; Some (bX bf xf k); Some (bR bf xf k); Some (bRt bf xf k); Some (bP bf xf k); Some (bPt bf xf k); o5; o6] -> Q tt m') ->
  WP (init_bicg ev evt b x r rt p pt a at_ ;;; times k (step_bicg ev evt b x r rt p pt a at_)) m Q.
Proof.
  intros Hst HQ. apply wp_bind. eapply w_init_bicg; [exact Hst|]. clear m Hst. intros m Hst. revert Q HQ.
  induction k as [|k IH]; intros Q HQ; cbn [times].
  - eapply HQ. exact Hst.
  - apply wp_bind. apply IH. intros m' o5' o6' Hst'. eapply w_step_bicg; [exact Hst'|]. intros m2 o5'' o6'' Hst2. eapply HQ. exact Hst2.
Qed.
End BICG.

(** ** BiCGStab *)
Section STAB.
Variables (ev : addeval_t K).
Variables (n : nat) (A : nat -> nat -> K) (F : addr -> Prop) (I : mem K -> Prop).
Hypothesis Hev : op_ok ev n n A F I.
Variables b x r rt p a as_ : vec.
Notation vs := [b; x; r; rt; p; a; as_].
Hypothesis Hsep : separate F vs.
Hypothesis Hdim : Forall (fun v => vdim v = n) vs.
Let Ikeep := op_keep _ _ _ _ _ _ Hev.

Notation u3 := (vect * vect * vect)%type.
Definition sa0 (bf xf : vect) : u3 :=
  let r := (fun i => bf i + fopp f1 * mvec n A xf i)%F in (xf, r, r).
Section S0.
Variable rt0 : vect.
Definition sal (s : u3) : K := let '(x, r, p) := s in (dot n r rt0 / dot n (mvec n A p) rt0)%F.
Definition shalf (s : u3) : vect := let '(x, r, p) := s in (fun i => r i + fopp (sal s) * mvec n A p i)%F.
Definition som (s : u3) : K := (dot n (mvec n A (shalf s)) (shalf s) / dot n (mvec n A (shalf s)) (mvec n A (shalf s)))%F.
Definition san (s : u3) : u3 :=
  let '(x, r, p) := s in
  let r' := (fun i => shalf s i + fopp (som s) * mvec n A (shalf s) i)%F in
  let be := (dot n r' rt0 / dot n r rt0 * sal s / som s)%F in
  (fun i => (x i + sal s * p i) + som s * shalf s i, r', fun i => (p i * be + f1 * r' i) + (fopp be * som s) * mvec n A p i)%F.
End S0.
Definition sas bf xf k := Nat.iter k (san (snd (sa0 bf xf))) (sa0 bf xf).
Definition sX bf xf k := fst (fst (sas bf xf k)).
Definition sR bf xf k := snd (fst (sas bf xf k)).
Definition sP bf xf k := snd (sas bf xf k).
Definition sH bf xf k := shalf (snd (sa0 bf xf)) (sas bf xf k).
Lemma sas_S bf xf k : sas bf xf (S k) = san (snd (sa0 bf xf)) (sX bf xf k, sR bf xf k, sP bf xf k).
Proof. unfold sX, sR, sP. rewrite <- !surjective_pairing. reflexivity. Qed.

Section Facts.
Variables bf xf : vect.
Notation X := (sX bf xf). Notation R := (sR bf xf). Notation P := (sP bf xf).
Lemma sa_res k i : i < n -> R k i = (bf i - mvec n A (X k) i)%F.
Proof.
  revert i. induction k as [|k IH]; intros i Hi; [cbn; ring|].
  set (s := (sX bf xf k, sR bf xf k, sP bf xf k)). set (t := snd (sa0 bf xf)).
  assert (ER : R (S k) i = (shalf t s i + fopp (som t s) * mvec n A (shalf t s) i)%F) by (unfold sR; rewrite sas_S; reflexivity).
  assert (EX : forall j, X (S k) j = ((X k j + sal t s * P k j) + som t s * shalf t s j)%F) by (intros; unfold sX; rewrite sas_S; reflexivity).
  rewrite ER. rewrite (mvec_ext n A A (X (S k)) (fun j => (X k j + sal t s * P k j) + som t s * shalf t s j)%F) by (auto; intros; apply EX).
  rewrite (mvec_add L), (mvec_add L).
  assert (EH : shalf t s i = (R k i + fopp (sal t s) * mvec n A (P k) i)%F) by reflexivity.
  rewrite EH, IH by exact Hi. ring.
Qed.
(** [as_] contains [A s] for the intermediate residual [s]; the new residual is orthogonal to it. *)
Lemma sa_min k : dot n (mvec n A (sH bf xf k)) (mvec n A (sH bf xf k)) <> f0 -> dot n (mvec n A (sH bf xf k)) (R (S k)) = f0.
Proof.
  intros H. set (s := sas bf xf k) in *. set (t := snd (sa0 bf xf)).
  assert (ER : forall i, R (S k) i = (shalf t s i - som t s * mvec n A (shalf t s) i)%F).
  { intros i. unfold sR. rewrite sas_S. cbn [san fst snd]. unfold s, sX, sR, sP. rewrite <- !surjective_pairing. fold t. ring. }
  rewrite (dot_ext' n _ (mvec n A (sH bf xf k)) _ (fun i => shalf t s i - som t s * mvec n A (shalf t s) i)%F) by auto.
  rewrite (dot_sub_r L). unfold som. unfold sH in *. fold t s in H. fold t s. field. exact H.
Qed.
End Facts.

Lemma w_init_bicgstab m0 m bf xf o1 o2 o3 o5 o6 (Q : unit -> mem K -> Prop) :
  vst I m0 vs m [Some bf; Some xf; o1; o2; o3; o5; o6] ->
  (forall m', vst I m0 vs m' [Some bf; Some (sX bf xf 0); Some (sR bf xf 0); Some (sR bf xf 0); Some (sP bf xf 0); o5; o6] -> Q tt m') ->
  WP (init_bicgstab ev b x r rt p a as_) m Q.
Proof.
  intros Hst HQ. repeat (apply Forall_cons_iff in Hdim as [? Hdim]). unfold init_bicgstab.
  apply wp_bind. wcopy Ikeep Hsep m Hst 0 2.
  apply wp_bind. wev Ikeep Hsep m Hst Hev 1 2.
  apply wp_bind. wcopy Ikeep Hsep m Hst 2 3.
  wcopy Ikeep Hsep m Hst 2 4. apply HQ. exact Hst.
Qed.
Lemma w_step_bicgstab m0 m bf xf k o5 o6 (Q : unit -> mem K -> Prop) :
  vst I m0 vs m [Some bf; Some (sX bf xf k); Some (sR bf xf k); Some (sR bf xf 0); Some (sP bf xf k); o5; o6] ->
  (forall m' o5, vst I m0 vs m' [Some bf; Some (sX bf xf (S k)); Some (sR bf xf (S k)); Some (sR bf xf 0); Some (sP bf xf (S k)); o5; Some (mvec n A (sH bf xf k))] -> Q tt m') ->
  WP (step_bicgstab ev b x r rt p a as_) m Q.
Proof.
  intros Hst HQ. repeat (apply Forall_cons_iff in Hdim as [? Hdim]). unfold step_bicgstab.
  wev0 RL Ikeep Hsep m Hst Hev 4 5.
  apply wp_bind. wdot n m Hst 2 3.
  apply wp_bind. wdot n m Hst 5 3.
  apply wp_bind. wadd Ikeep Hsep m Hst 5 2.
  wev0 RL Ikeep Hsep m Hst Hev 2 6.
  apply wp_bind. wdot n m Hst 6 2.
  apply wp_bind. wdot n m Hst 6 6.
  apply wp_bind. wadd Ikeep Hsep m Hst 4 1.
  apply wp_bind. wadd Ikeep Hsep m Hst 2 1.
  apply wp_bind. wadd Ikeep Hsep m Hst 6 2.
  apply wp_bind. wdot n m Hst 2 3.
  apply wp_bind. wscale Ikeep Hsep m Hst 4.
  apply wp_bind. wadd Ikeep Hsep m Hst 2 4.
  wadd Ikeep Hsep m Hst 5 4.
  eapply HQ. unfold sX, sR, sP, sH in *. rewrite !sas_S.
  assert (E : sas bf xf k = (sX bf xf k, sR bf xf k, sP bf xf k)) by (unfold sX, sR, sP; rewrite <- !surjective_pairing; reflexivity).
  rewrite E in *. exact Hst.
Qed.
Lemma w_bicgstab m0 m bf xf k o1 o2 o3 o5 o6 (Q : unit -> mem K -> Prop) :
  vst I m0 vs m [Some bf; Some xf; o1; o2; o3; o5; o6] ->
  (forall m' o5 o6, vst I m0 vs m' [Some bf; Some (sX bf xf k); Some (sR bf xf k); Some (sR bf xf 0); Some (sP bf xf k); o5; o6] ->
     (forall j, k = S j -> o6 = Some (mvec n A (sH bf xf j))) -> Q tt m') ->
  WP (init_bicgstab ev b x r rt p a as_ ;;; times k (step_bicgstab ev b x r rt p a as_)) m Q.
Proof.
  intros Hst HQ. apply wp_bind. eapply w_init_bicgstab; [exact Hst|]. clear m Hst. intros m Hst. revert Q HQ.
  induction k as [|k IH]; intros Q HQ; cbn [times].
  - eapply HQ; [exact Hst|]. discriminate.
  - apply wp_bind. apply IH. intros m' o5' o6' Hst' _. eapply w_step_bicgstab; [exact Hst'|]. intros m2 o5'' Hst2. eapply HQ; [exact Hst2|].
    intros j [= <-]. reflexivity.
Qed.
End STAB.
End KrylovP4.
