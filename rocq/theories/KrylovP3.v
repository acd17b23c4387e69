(** * Krylov methods: what the programs compute *)
From Coq Require Import Arith Lia List Bool Ring Field.
From Verif Require Import Fld Prog View Spec Loop Avector AvectorP AmatrixP2 Factor Lr Chol Qr LrP QrP Krylov KrylovSpec KrylovP KrylovP2.
Import ListNotations.

(** Tactics; the proofs use the names [m], [Hst], [Hsep], [Ikeep] for the current memory, its
    description, the hypothesis on the vectors and the stability of the operators. *)
Ltac wdim := first [reflexivity | assumption | congruence | lia].
Ltac wnext m Hst := clear m Hst; intros m Hst; cbn [setn] in Hst.
Ltac wcopy Ik Hs m Hst a b := eapply (w_copy _ _ Ik _ Hs) with (i := a) (j := b); [exact Hst|reflexivity..|lia|wdim|]; wnext m Hst.
Ltac wadd Ik Hs m Hst a b := eapply (w_add _ _ Ik _ Hs) with (i := a) (j := b); [exact Hst|reflexivity..|lia|wdim|]; wnext m Hst.
Ltac wscale Ik Hs m Hst a := eapply (w_scale _ _ Ik _ Hs) with (j := a); [exact Hst|reflexivity..|]; wnext m Hst.
Ltac wev Ik Hs m Hst He a b := eapply (w_ev _ _ Ik _ Hs) with (i := a) (j := b); [exact He|exact Hst|reflexivity..|lia|wdim|wdim|]; wnext m Hst.
Ltac wev0 RL Ik Hs m Hst He a b := eapply (w_ev0 RL _ _ Ik _ Hs) with (i := a) (j := b); [exact He|exact Hst|reflexivity..|lia|wdim|wdim|]; wnext m Hst.
Ltac wmay RL Ik Hs m Hst Hp a := eapply (w_may RL _ _ Ik _ Hs) with (j := a); [exact Hp|exact Hst|reflexivity..|wdim|]; wnext m Hst.
Ltac wpc Ik Hs m Hst Hp a := eapply (w_pc _ _ Ik _ Hs) with (j := a); [exact Hp|exact Hst|reflexivity..|wdim|]; wnext m Hst.
Ltac wdot d m Hst a b := eapply w_dot with (i := a) (j := b) (n := d); [exact Hst|reflexivity..|wdim|wdim|]; cbv beta.

Section KrylovP3.
Context {K : fops} (L : field_laws K).
Let RL := fl_ring K L.
Add Ring KringK : (rl_ring K (fl_ring K L)).
Add Field KfieldK : (K_field L).
Implicit Types (m : mem K) (F : addr -> Prop).
Notation WP := (wp TT TT).
Notation vect := (nat -> K).

(** ** Conjugate gradients: the iteration in mathematical terms *)
Section CG.
Variable n : nat.
Variable A : nat -> nat -> K.
Variable pre : vect -> vect.
Definition cg0 (bf xf : vect) : vect * vect * vect :=
  let r := (fun i => bf i + fopp f1 * mvec n A xf i)%F in (xf, r, pre r).
Definition cgn (s : vect * vect * vect) : vect * vect * vect :=
  let '(x, r, p) := s in
  let a := mvec n A p in
  let g := dot n p a in
  let l := (dot n p r / g)%F in
  let r' := (fun i => r i + fopp l * a i)%F in
  let mu := (dot n a (pre r') / g)%F in
  (fun i => x i + l * p i, r', fun i => p i * fopp mu + f1 * pre r' i)%F.
Definition cgs (bf xf : vect) (k : nat) := Nat.iter k cgn (cg0 bf xf).
Definition cX bf xf k := fst (fst (cgs bf xf k)).
Definition cR bf xf k := snd (fst (cgs bf xf k)).
Definition cP bf xf k := snd (cgs bf xf k).

Lemma cgs_S bf xf k : cgs bf xf (S k) = cgn (cX bf xf k, cR bf xf k, cP bf xf k).
Proof. unfold cX, cR, cP. rewrite <- !surjective_pairing. reflexivity. Qed.

Section Facts.
Variables bf xf : vect.
Notation X := (cX bf xf). Notation R := (cR bf xf). Notation P := (cP bf xf).
Notation Q := (fun k => pre (R k)).
Lemma cg_P0 i : i < n -> P 0 i = Q 0 i.
Proof. reflexivity. Qed.
Lemma cg_X k i : X (S k) i = (X k i + lam n A R P k * P k i)%F.
Proof. unfold cX at 1. rewrite cgs_S. reflexivity. Qed.
Lemma cg_R k i : i < n -> R (S k) i = (R k i - lam n A R P k * mvec n A (P k) i)%F.
Proof. unfold cR at 1. rewrite cgs_S. cbn. unfold lam, gam. intros _. ring. Qed.
Lemma cg_P k i : i < n -> P (S k) i = (Q (S k) i - muc n A P Q k * P k i)%F.
Proof.
  intros _. unfold cP at 1. cbv beta. unfold muc, gam. unfold cR. rewrite !cgs_S. cbn. ring.
Qed.
Lemma cg_res k i : i < n -> R k i = (bf i - mvec n A (X k) i)%F.
Proof.
  revert i. induction k as [|k IH]; intros i Hi; [cbn; ring|].
  rewrite cg_R, IH by exact Hi. rewrite (mvec_ext n A A (X (S k)) (fun j => X k j + lam n A R P k * P k j)%F) by (auto; intros; apply cg_X).
  rewrite (mvec_add L). ring.
Qed.
End Facts.
End CG.

(** ** PCG *)
Section PCG.
Variable ev : addeval_t K.
Variable pc : option (prcd_t K).
Variables (n : nat) (A N : nat -> nat -> K) (F : addr -> Prop) (I : mem K -> Prop).
Hypothesis Hev : op_ok ev n n A F I.
Hypothesis Hpc : prcd_ok pc n N F I.
Variables b x r q p a : vec.
Notation vs := [b; x; r; q; p; a].
Hypothesis Hsep : separate F vs.
Hypothesis Hdim : Forall (fun v => vdim v = n) vs.
Let Ikeep := op_keep _ _ _ _ _ _ Hev.

Lemma w_init_pcg m0 m bf xf o1 o2 o3 o4 (Q : unit -> mem K -> Prop) :
  vst I m0 vs m [Some bf; Some xf; o1; o2; o3; o4] ->
  (forall m', vst I m0 vs m' [Some bf; Some xf; Some (cR n A (mvec n N) bf xf 0); Some (mvec n N (cR n A (mvec n N) bf xf 0)); Some (cP n A (mvec n N) bf xf 0); o4] -> Q tt m') ->
  WP (init_pcg ev pc b x r q p a) m Q.
Proof.
  intros Hst HQ. repeat (apply Forall_cons_iff in Hdim as [? Hdim]). unfold init_pcg.
  apply wp_bind. wcopy Ikeep Hsep m Hst 0 2.
  apply wp_bind. wev Ikeep Hsep m Hst Hev 1 2.
  apply wp_bind. wcopy Ikeep Hsep m Hst 2 3.
  apply wp_bind. wmay RL Ikeep Hsep m Hst Hpc 3.
  wcopy Ikeep Hsep m Hst 3 4. apply HQ. exact Hst.
Qed.

Lemma w_step_pcg m0 m bf xf k oq oa (Q : unit -> mem K -> Prop) :
  vst I m0 vs m [Some bf; Some (cX n A (mvec n N) bf xf k); Some (cR n A (mvec n N) bf xf k); oq; Some (cP n A (mvec n N) bf xf k); oa] ->
  (forall m', vst I m0 vs m' [Some bf; Some (cX n A (mvec n N) bf xf (S k)); Some (cR n A (mvec n N) bf xf (S k));
     Some (mvec n N (cR n A (mvec n N) bf xf (S k))); Some (cP n A (mvec n N) bf xf (S k)); Some (mvec n A (cP n A (mvec n N) bf xf k))] -> Q tt m') ->
  WP (step_pcg ev pc b x r q p a) m Q.
Proof.
  intros Hst HQ. repeat (apply Forall_cons_iff in Hdim as [? Hdim]). unfold step_pcg.
  wev0 RL Ikeep Hsep m Hst Hev 4 5.
  apply wp_bind. wdot n m Hst 4 5.
  apply wp_bind. wdot n m Hst 4 2.
  apply wp_bind. wadd Ikeep Hsep m Hst 4 1.
  apply wp_bind. wadd Ikeep Hsep m Hst 5 2.
  apply wp_bind. wcopy Ikeep Hsep m Hst 2 3.
  apply wp_bind. wmay RL Ikeep Hsep m Hst Hpc 3.
  apply wp_bind. wdot n m Hst 5 3.
  apply wp_bind. wscale Ikeep Hsep m Hst 4.
  wadd Ikeep Hsep m Hst 3 4.
  apply HQ. unfold cX, cR, cP in *. rewrite !cgs_S. exact Hst.
Qed.

Lemma w_pcg m0 m bf xf k o1 o2 o3 o4 (Q : unit -> mem K -> Prop) :
  vst I m0 vs m [Some bf; Some xf; o1; o2; o3; o4] ->
  (forall m' oa, vst I m0 vs m' [Some bf; Some (cX n A (mvec n N) bf xf k); Some (cR n A (mvec n N) bf xf k);
     Some (mvec n N (cR n A (mvec n N) bf xf k)); Some (cP n A (mvec n N) bf xf k); oa] -> Q tt m') ->
  WP (init_pcg ev pc b x r q p a ;;; times k (step_pcg ev pc b x r q p a)) m Q.
Proof.
  intros Hst HQ. apply wp_bind. eapply w_init_pcg; [exact Hst|]. clear m Hst. intros m Hst. revert Q HQ.
  induction k as [|k IH]; intros Q HQ; cbn [times].
  - eapply HQ. exact Hst.
  - apply wp_bind. apply IH. intros m' oa Hst'. eapply w_step_pcg; [exact Hst'|]. intros m2 Hst2. eapply HQ. exact Hst2.
Qed.
End PCG.

(** ** CG *)
Section CGP.
Variable ev : addeval_t K.
Variables (n : nat) (A : nat -> nat -> K) (F : addr -> Prop) (I : mem K -> Prop).
Hypothesis Hev : op_ok ev n n A F I.
Variables b x r p a : vec.
Notation vs := [b; x; r; p; a].
Hypothesis Hsep : separate F vs.
Hypothesis Hdim : Forall (fun v => vdim v = n) vs.
Let Ikeep := op_keep _ _ _ _ _ _ Hev.
Notation idp := (fun v : vect => v).

Lemma w_init_cg m0 m bf xf o1 o3 o4 (Q : unit -> mem K -> Prop) :
  vst I m0 vs m [Some bf; Some xf; o1; o3; o4] ->
  (forall m', vst I m0 vs m' [Some bf; Some xf; Some (cR n A idp bf xf 0); Some (cP n A idp bf xf 0); o4] -> Q tt m') ->
  WP (init_cg ev b x r p a) m Q.
Proof.
  intros Hst HQ. repeat (apply Forall_cons_iff in Hdim as [? Hdim]). unfold init_cg.
  apply wp_bind. wcopy Ikeep Hsep m Hst 0 2.
  apply wp_bind. wev Ikeep Hsep m Hst Hev 1 2.
  wcopy Ikeep Hsep m Hst 2 3. apply HQ. exact Hst.
Qed.

Lemma w_step_cg m0 m bf xf k oa (Q : unit -> mem K -> Prop) :
  vst I m0 vs m [Some bf; Some (cX n A idp bf xf k); Some (cR n A idp bf xf k); Some (cP n A idp bf xf k); oa] ->
  (forall m', vst I m0 vs m' [Some bf; Some (cX n A idp bf xf (S k)); Some (cR n A idp bf xf (S k));
     Some (cP n A idp bf xf (S k)); Some (mvec n A (cP n A idp bf xf k))] -> Q tt m') ->
  WP (step_cg ev b x r p a) m Q.
Proof.
  intros Hst HQ. repeat (apply Forall_cons_iff in Hdim as [? Hdim]). unfold step_cg.
  wev0 RL Ikeep Hsep m Hst Hev 3 4.
  apply wp_bind. wdot n m Hst 3 4.
  apply wp_bind. wdot n m Hst 3 2.
  apply wp_bind. wadd Ikeep Hsep m Hst 3 1.
  apply wp_bind. wadd Ikeep Hsep m Hst 4 2.
  apply wp_bind. wdot n m Hst 4 2.
  apply wp_bind. wscale Ikeep Hsep m Hst 3.
  wadd Ikeep Hsep m Hst 2 3.
  apply HQ. unfold cX, cR, cP in *. rewrite !cgs_S. exact Hst.
Qed.

Lemma w_cg m0 m bf xf k o1 o3 o4 (Q : unit -> mem K -> Prop) :
  vst I m0 vs m [Some bf; Some xf; o1; o3; o4] ->
  (forall m' oa, vst I m0 vs m' [Some bf; Some (cX n A idp bf xf k); Some (cR n A idp bf xf k);
     Some (cP n A idp bf xf k); oa] -> Q tt m') ->
  WP (init_cg ev b x r p a ;;; times k (step_cg ev b x r p a)) m Q.
Proof.
  intros Hst HQ. apply wp_bind. eapply w_init_cg; [exact Hst|]. clear m Hst. intros m Hst. revert Q HQ.
  induction k as [|k IH]; intros Q HQ; cbn [times].
  - eapply HQ. exact Hst.
  - apply wp_bind. apply IH. intros m' oa Hst'. eapply w_step_cg; [exact Hst'|]. intros m2 Hst2. eapply HQ. exact Hst2.
Qed.
End CGP.
End KrylovP3.
