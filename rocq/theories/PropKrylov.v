(** * Properties C38, C39 and C41: Krylov methods *)
From Coq Require Import Arith NArith Lia List Bool ZArith Ring Field.
From Coq Require Rdefinitions R_sqrt Lra.
From Verif Require Import Fld Inst Prog View Spec Loop Line Avector AvectorP Amatrix AmatrixP Factor FactorSpec FactorP Lr LrP Chol CholSpec
  Qr QrSpec QrP Krylov KrylovSpec KrylovP KrylovP2 KrylovP3 KrylovP4 KrylovP5 KrylovP6 KrylovP7 OrdInst CholInst QrInst KrylovInst.
Import ListNotations.

Section CG.
Context {K : fops} (L : field_laws K).
Add Ring KringPK : (rl_ring K (fl_ring K L)).
Add Field KfieldPK : (K_field L).
Implicit Types (m : mem K) (F : addr -> Prop) (I : mem K -> Prop).

(** ** C38: conjugate gradients *)

(** [init_cg] followed by [k] calls of [step_cg] computes the [k]-th iterate, residual and
    search direction of the method of conjugate gradients. *)
Theorem C38_cg : forall ev n A F I b x r p a bf xf m,
  op_ok ev n n A F I -> I m -> vval m b bf -> vval m x xf -> valloc m r -> valloc m p -> valloc m a ->
  separate F [b; x; r; p; a] -> Forall (fun v => vdim v = n) [b; x; r; p; a] ->
  exists X P, cgseq n A idf bf X P /\ (forall i, X 0 i = xf i) /\
    forall k, ends (bind (init_cg ev b x r p a) (fun _ => times k (step_cg ev b x r p a))) m
      (fun _ m' => vval m' x (X k) /\ vval m' r (resid n A bf X k) /\ vval m' p (P k) /\ keeps (inany [x; r; p; a]) m m').
Proof.
  intros ev n A F I b x r p a bf xf m Hev HI Hb Hx Hr Hp Ha Hs Hd.
  exists (cX n A (fun v => v) bf xf), (cP n A (fun v => v) bf xf).
  split; [apply (cg_seq L)|]. split; [reflexivity|]. intros k. apply wp_ends.
  eapply (w_cg L ev n A F I Hev b x r p a Hs Hd m m bf xf k None None None).
  { split; [exact HI|]. split; [apply keeps_refl|]. repeat constructor; assumption. }
  intros m' oa Hst. assert (Hd' := Hd). repeat (apply Forall_cons_iff in Hd' as [? Hd']).
  split; [exact (vst_get _ _ _ _ _ 1 x _ Hst eq_refl eq_refl)|]. split; [|split].
  - eapply vval_ext; [exact (vst_get _ _ _ _ _ 2 r _ Hst eq_refl eq_refl)|]. intros i Hi. apply (cg_res L). lia.
  - exact (vst_get _ _ _ _ _ 3 p _ Hst eq_refl eq_refl).
  - eapply keeps_drop; [exact (proj1 (proj2 Hst))|exact Hb|exact (vst_get _ _ _ _ _ 0 b _ Hst eq_refl eq_refl)|].
    intros c (y & [<-|Hy] & Hc); [right; exact Hc|left; exists y; auto].
Qed.

(** With a preconditioner. *)
Theorem C38_pcg : forall ev pc n A N F I b x r q p a bf xf m,
  op_ok ev n n A F I -> prcd_ok pc n N F I -> I m -> vval m b bf -> vval m x xf ->
  valloc m r -> valloc m q -> valloc m p -> valloc m a ->
  separate F [b; x; r; q; p; a] -> Forall (fun v => vdim v = n) [b; x; r; q; p; a] ->
  exists X P, cgseq n A N bf X P /\ (forall i, X 0 i = xf i) /\
    forall k, ends (bind (init_pcg ev pc b x r q p a) (fun _ => times k (step_pcg ev pc b x r q p a))) m
      (fun _ m' => vval m' x (X k) /\ vval m' r (resid n A bf X k) /\ vval m' q (mvec n N (resid n A bf X k)) /\
         vval m' p (P k) /\ keeps (inany [x; r; q; p; a]) m m').
Proof.
  intros ev pc n A N F I b x r q p a bf xf m Hev Hpc HI Hb Hx Hr Hq Hp Ha Hs Hd.
  exists (cX n A (mvec n N) bf xf), (cP n A (mvec n N) bf xf).
  split; [apply (pcg_seq L)|]. split; [reflexivity|]. intros k. apply wp_ends.
  eapply (w_pcg L ev pc n A N F I Hev Hpc b x r q p a Hs Hd m m bf xf k None None None None).
  { split; [exact HI|]. split; [apply keeps_refl|]. repeat constructor; assumption. }
  intros m' oa Hst. assert (Hd' := Hd). repeat (apply Forall_cons_iff in Hd' as [? Hd']).
  split; [exact (vst_get _ _ _ _ _ 1 x _ Hst eq_refl eq_refl)|]. split; [|split; [|split]].
  - eapply vval_ext; [exact (vst_get _ _ _ _ _ 2 r _ Hst eq_refl eq_refl)|]. intros i Hi. apply (cg_res L). lia.
  - eapply vval_ext; [exact (vst_get _ _ _ _ _ 3 q _ Hst eq_refl eq_refl)|]. intros i Hi. apply mvec_ext; auto. intros; apply (cg_res L); assumption.
  - exact (vst_get _ _ _ _ _ 4 p _ Hst eq_refl eq_refl).
  - eapply keeps_drop; [exact (proj1 (proj2 Hst))|exact Hb|exact (vst_get _ _ _ _ _ 0 b _ Hst eq_refl eq_refl)|].
    intros c (y & [<-|Hy] & Hc); [right; exact Hc|left; exists y; auto].
Qed.

(** As long as no division by zero occurs, each residual is orthogonal to all earlier search
    directions, the search directions are conjugate, and the residuals are orthogonal with
    respect to the preconditioner. *)
Theorem C38_orthogonal : forall n (A N : nat -> nat -> K) b X P k, hermitian n A -> hermitian n N -> cgseq n A N b X P ->
  nobreak n A N b X P k ->
  forall i j, i < j -> j <= k ->
    dot n (P i) (resid n A b X j) = f0 /\ dot n (P i) (mvec n A (P j)) = f0 /\
    dot n (mvec n N (resid n A b X i)) (resid n A b X j) = f0.
Proof. intros n A N b X P k HA HN HS Hk. exact (seq_orth L n A N b X P HA HN HS k Hk). Qed.

(** For definite matrices, divisions by zero occur only after a zero residual. *)
Theorem C38_nobreak : forall n (A N : nat -> nat -> K) b X P k, hermitian n A -> hermitian n N -> definite n A -> definite n N -> cgseq n A N b X P ->
  (forall j, j < k -> exists i, i < n /\ resid n A b X j i <> f0) -> nobreak n A N b X P k.
Proof.
  intros n A N b X P k HA HN dA dN HS Hk. unfold nobreak.
  apply (cg_nobreak L n A HA (resid n A b X) P (fun k => mvec n N (resid n A b X k))).
  - apply (cs_P0 _ _ _ _ _ _ HS).
  - intros; apply (seq_R L n A N b X P HS); assumption.
  - intros; apply (seq_P n A N b X P HS); assumption.
  - intros; apply (seq_Q L n A N b X HN).
  - exact dA.
  - intros j E. apply dN. rewrite <- (seq_Q L n A N b X HN). exact E.
  - exact Hk.
Qed.

(** The method finds the solution within [n] steps. *)
Theorem C38_terminates : forall n (A N : nat -> nat -> K) b X P, hermitian n A -> hermitian n N -> definite n A -> definite n N -> cgseq n A N b X P ->
  exists k, k <= n /\ forall i, i < n -> mvec n A (X k) i = b i.
Proof. intros n A N b X P HA HN dA dN HS. exact (seq_end L n A N b X P HA HN HS dA dN). Qed.

(** The energy norm of the error of the [k]-th iterate is minimal: adding a combination [d]
    of the search directions to the iterate adds the energy of [d] to the error. *)
Theorem C38_optimal : forall n (A N : nat -> nat -> K) b X P k xs d, hermitian n A -> hermitian n N -> cgseq n A N b X P -> nobreak n A N b X P k ->
  (forall i, i < n -> mvec n A xs i = b i) -> inspan n P k d ->
  let e := (fun i => xs i - X k i)%F in let e' := (fun i => xs i - (X k i + d i))%F in
  dot n e' (mvec n A e') = (dot n e (mvec n A e) + dot n d (mvec n A d))%F.
Proof. intros n A N b X P k xs d HA HN HS Hk Hxs Hd. exact (seq_opt L n A N b X P HA HN HS k xs d Hk Hxs Hd). Qed.

(** [evalfunctional_cg] *)
Theorem C38_evalfunctional : forall (O : rops K) n (A : nat -> nat -> K) b x r bf xf m,
  vval m b bf -> vval m x xf -> vval m r (fun i => bf i - mvec n A xf i)%F ->
  vdim b = n -> vdim x = n -> vdim r = n -> (f1 + f1 : K)%F <> f0 ->
  ends (evalfunctional_cg O b x r) m (fun v m' => m' = m /\
    v = re O (f1 / (f1 + f1) * dot n (mvec n A xf) xf - dot n bf xf)%F).
Proof.
  intros O n A b x r bf xf m Hb Hx Hr Hdb Hdx Hdr H2. apply wp_ends. unfold evalfunctional_cg. apply wp_bind.
  eapply wp_dotprod_avector; [exact Hr|exact Hx|lia|intros ? _; left; exact I|intros ? _; left; exact I|]. apply wp_bind.
  eapply wp_dotprod_avector; [exact Hb|exact Hx|lia|intros ? _; left; exact I|intros ? _; left; exact I|].
  cbn [wp]. split; [reflexivity|]. f_equal. rewrite Hdb, Hdr.
  assert (E : dot n (fun i => bf i - mvec n A xf i)%F xf = (dot n bf xf - dot n (mvec n A xf) xf)%F).
  { rewrite (dot_ext' n _ (fun i => bf i - f1 * mvec n A xf i)%F xf xf) by (auto; intros; ring).
    rewrite (dot_sub_l L), (fconj_1 (fl_ring K L)). ring. }
  fold (dot n (fun i => bf i - mvec n A xf i)%F xf) in *. fold (dot n bf xf) in *. rewrite E. field. exact H2.
Qed.

(** ** C39: BiCG, BiCGStab and Uzawa *)
Theorem C39_bicg : forall ev evt n A F I b x r rt p pt a at_ bf xf m,
  op_ok ev n n A F I -> op_ok evt n n (tr true A) F I -> I m -> vval m b bf -> vval m x xf ->
  valloc m r -> valloc m rt -> valloc m p -> valloc m pt -> valloc m a -> valloc m at_ ->
  separate F [b; x; r; rt; p; pt; a; at_] -> Forall (fun v => vdim v = n) [b; x; r; rt; p; pt; a; at_] ->
  exists X Rt P Pt, bicgseq n A bf X Rt P Pt /\ (forall i, X 0 i = xf i) /\
    forall k, ends (bind (init_bicg ev evt b x r rt p pt a at_) (fun _ => times k (step_bicg ev evt b x r rt p pt a at_))) m
      (fun _ m' => vval m' x (X k) /\ vval m' r (resid n A bf X k) /\ vval m' rt (Rt k) /\ vval m' p (P k) /\ vval m' pt (Pt k) /\
         keeps (inany [x; r; rt; p; pt; a; at_]) m m').
Proof.
  intros ev evt n A F I b x r rt p pt a at_ bf xf m Hev Hevt HI Hb Hx Hr Hrt Hp Hpt Ha Hat Hs Hd.
  exists (bX n A bf xf), (bRt n A bf xf), (bP n A bf xf), (bPt n A bf xf).
  split; [apply (bicg_seq L)|]. split; [reflexivity|]. intros k. apply wp_ends.
  eapply (w_bicg L ev evt n A F I Hev Hevt b x r rt p pt a at_ Hs Hd m m bf xf k None None None None None None).
  { split; [exact HI|]. split; [apply keeps_refl|]. repeat constructor; assumption. }
  intros m' o7 o8 Hst. assert (Hd' := Hd). repeat (apply Forall_cons_iff in Hd' as [? Hd']).
  split; [exact (vst_get _ _ _ _ _ 1 x _ Hst eq_refl eq_refl)|]. split; [|split; [|split; [|split]]].
  - eapply vval_ext; [exact (vst_get _ _ _ _ _ 2 r _ Hst eq_refl eq_refl)|]. intros i Hi. apply (bi_res L). lia.
  - exact (vst_get _ _ _ _ _ 3 rt _ Hst eq_refl eq_refl).
  - exact (vst_get _ _ _ _ _ 4 p _ Hst eq_refl eq_refl).
  - exact (vst_get _ _ _ _ _ 5 pt _ Hst eq_refl eq_refl).
  - eapply keeps_drop; [exact (proj1 (proj2 Hst))|exact Hb|exact (vst_get _ _ _ _ _ 0 b _ Hst eq_refl eq_refl)|].
    intros c (y & [<-|Hy] & Hc); [right; exact Hc|left; exists y; auto].
Qed.

(** Over a field with trivial conjugation, residuals and adjoint residuals are biorthogonal and
    the search directions are biconjugate; after at most [n] steps the method has solved the
    system or broken down. *)
Theorem C39_bicg_orthogonal : forall n (A : nat -> nat -> K) b X Rt P Pt, (forall a : K, fconj a = a) -> bicgseq n A b X Rt P Pt ->
  forall k, (forall j, j < k -> dot n (mvec n A (P j)) (Pt j) <> f0 /\ dot n (resid n A b X j) (Rt j) <> f0) ->
  forall i j, i <> j -> i <= k -> j <= k ->
    dot n (resid n A b X i) (Rt j) = f0 /\ dot n (mvec n A (P i)) (Pt j) = f0.
Proof. intros n A b X Rt P Pt Hr HS. exact (bicgseq_orth L n A b X Rt P Pt Hr HS). Qed.
Theorem C39_bicg_terminates : forall n (A : nat -> nat -> K) b X Rt P Pt, (forall a : K, fconj a = a) -> bicgseq n A b X Rt P Pt ->
  exists k, k <= n /\ (dot n (mvec n A (P k)) (Pt k) = f0 \/ dot n (resid n A b X k) (Rt k) = f0).
Proof. intros n A b X Rt P Pt Hr HS. exact (bicgseq_end L n A b X Rt P Pt Hr HS). Qed.

Theorem C39_bicgstab : forall ev n A F I b x r rt p a as_ bf xf m,
  op_ok ev n n A F I -> I m -> vval m b bf -> vval m x xf ->
  valloc m r -> valloc m rt -> valloc m p -> valloc m a -> valloc m as_ ->
  separate F [b; x; r; rt; p; a; as_] -> Forall (fun v => vdim v = n) [b; x; r; rt; p; a; as_] ->
  exists X P, bicgstabseq n A bf X P /\ (forall i, X 0 i = xf i) /\
    forall k, ends (bind (init_bicgstab ev b x r rt p a as_) (fun _ => times k (step_bicgstab ev b x r rt p a as_))) m
      (fun _ m' => vval m' x (X k) /\ vval m' r (resid n A bf X k) /\ vval m' rt (resid n A bf X 0) /\ vval m' p (P k) /\
         keeps (inany [x; r; rt; p; a; as_]) m m').
Proof.
  intros ev n A F I b x r rt p a as_ bf xf m Hev HI Hb Hx Hr Hrt Hp Ha Has Hs Hd.
  exists (sX n A bf xf), (sP n A bf xf).
  split; [apply (bicgstab_seq L)|]. split; [reflexivity|]. intros k. apply wp_ends.
  eapply (w_bicgstab L ev n A F I Hev b x r rt p a as_ Hs Hd m m bf xf k None None None None None).
  { split; [exact HI|]. split; [apply keeps_refl|]. repeat constructor; assumption. }
  intros m' o7 o8 Hst _. assert (Hd' := Hd). repeat (apply Forall_cons_iff in Hd' as [? Hd']).
  split; [exact (vst_get _ _ _ _ _ 1 x _ Hst eq_refl eq_refl)|]. split; [|split; [|split]].
  - eapply vval_ext; [exact (vst_get _ _ _ _ _ 2 r _ Hst eq_refl eq_refl)|]. intros i Hi. apply (sa_res L). lia.
  - eapply vval_ext; [exact (vst_get _ _ _ _ _ 3 rt _ Hst eq_refl eq_refl)|]. intros i Hi. apply (sa_res L). lia.
  - exact (vst_get _ _ _ _ _ 4 p _ Hst eq_refl eq_refl).
  - eapply keeps_drop; [exact (proj1 (proj2 Hst))|exact Hb|exact (vst_get _ _ _ _ _ 0 b _ Hst eq_refl eq_refl)|].
    intros c (y & [<-|Hy] & Hc); [right; exact Hc|left; exists y; auto].
Qed.
(** The stabilisation minimises the residual along [A s], [s] the intermediate residual. *)
Theorem C39_bicgstab_minimal : forall n (A : nat -> nat -> K) b X P k, bicgstabseq n A b X P ->
  let r := resid n A b X in let s := bss n A (r 0) (r k) (P k) in
  dot n (mvec n A s) (mvec n A s) <> f0 -> dot n (mvec n A s) (r (S k)) = f0.
Proof. intros n A b X P k HS. exact (bicgstab_min L n A b X P k HS). Qed.

(** The Uzawa iteration solves the first row of the saddle point problem
    [A11 x1 + A21^* x2 = b1], [A21 x1 = b2] exactly in each step and applies conjugate gradients
    to the Schur complement. *)
Theorem C39_puzawa : forall solve mvm pc n1 n2 A11 N11 B N F I b1 b2 x1 x2 r2 q2 p2 a1 s2 f1' f2 y m,
  pc_ok solve n1 N11 F I -> op_ok (fun al u v => mvm al false u v) n2 n1 B F I ->
  op_ok (fun al u v => mvm al true u v) n1 n2 (tr true B) F I -> prcd_ok pc n2 N F I ->
  hermitian n1 A11 -> (forall i j, i < n1 -> j < n1 -> mmul n1 A11 N11 i j = idf i j) ->
  I m -> vval m b1 f1' -> vval m b2 f2 -> valloc m x1 -> vval m x2 y ->
  valloc m r2 -> valloc m q2 -> valloc m p2 -> valloc m a1 -> valloc m s2 ->
  separate F [b1; b2; x1; x2; r2; q2; p2; a1; s2] ->
  Forall (fun v => vdim v = n1) [b1; x1; a1] -> Forall (fun v => vdim v = n2) [b2; x2; r2; q2; p2; s2] ->
  exists X1 X2 P, cgseq n2 (schurc n1 N11 B) N (fun i => mvec n1 B (mvec n1 N11 f1') i - f2 i)%F X2 P /\ (forall i, X2 0 i = y i) /\
    (forall k i, i < n1 -> (mvec n1 A11 (X1 k) i + mvec n2 (tr true B) (X2 k) i)%F = f1' i) /\
    (hermitian n2 N -> definite n2 (schurc n1 N11 B) -> definite n2 N ->
       exists k, k <= n2 /\ forall i, i < n2 -> mvec n1 B (X1 k) i = f2 i) /\
    forall k, ends (bind (init_puzawa solve mvm pc b1 b2 x1 x2 r2 q2 p2 a1 s2)
        (fun _ => times k (step_puzawa solve mvm pc b1 b2 x1 x2 r2 q2 p2 a1 s2))) m
      (fun _ m' => vval m' x1 (X1 k) /\ vval m' x2 (X2 k) /\ vval m' r2 (fun i => mvec n1 B (X1 k) i - f2 i)%F /\
         vval m' p2 (P k) /\ keeps (inany [x1; x2; r2; q2; p2; a1; s2]) m m').
Proof.
  intros solve mvm pc n1 n2 A11 N11 B N F I b1 b2 x1 x2 r2 q2 p2 a1 s2 g1 g2 y m Hsol HF HT Hpc HA Hinv HI Hb1 Hb2 Hx1 Hx2 Hr Hq Hp Ha Hs2 Hs Hd1 Hd2.
  exists (u1 n1 n2 N11 B (mvec n2 N) g1 g2 y), (u2 n1 n2 N11 B (mvec n2 N) g1 g2 y), (uP n1 n2 N11 B (mvec n2 N) g1 g2 y).
  split; [apply (uzawa_seq L n1 n2 A11 N11 B N HA Hinv); reflexivity|]. split; [reflexivity|].
  split; [apply (uz_row1 L n1 n2 A11 N11 B _ Hinv)|].
  split; [apply (uzawa_end L n1 n2 A11 N11 B N HA Hinv); reflexivity|].
  intros k. apply wp_ends.
  eapply (w_puzawa L solve mvm pc n1 n2 N11 B N F I Hsol HF HT Hpc b1 b2 x1 x2 r2 q2 p2 a1 s2 Hs Hd1 Hd2 m m g1 g2 y k None None None None None None).
  { split; [exact HI|]. split; [apply keeps_refl|]. repeat constructor; assumption. }
  intros m' o7 o8 Hst.
  split; [exact (vst_get _ _ _ _ _ 2 x1 _ Hst eq_refl eq_refl)|]. split; [exact (vst_get _ _ _ _ _ 3 x2 _ Hst eq_refl eq_refl)|].
  split; [|split].
  - eapply vval_ext; [exact (vst_get _ _ _ _ _ 4 r2 _ Hst eq_refl eq_refl)|]. intros i Hi. apply (uz_row2 L).
  - exact (vst_get _ _ _ _ _ 6 p2 _ Hst eq_refl eq_refl).
  - eapply keeps_drop; [|exact Hb2|exact (vst_get _ _ _ _ _ 1 b2 _ Hst eq_refl eq_refl)|].
    + eapply (keeps_drop _ (inany [b2; x1; x2; r2; q2; p2; a1; s2])); [exact (proj1 (proj2 Hst))|exact Hb1|exact (vst_get _ _ _ _ _ 0 b1 _ Hst eq_refl eq_refl)|].
      intros c (z & [<-|Hz] & Hc); [right; exact Hc|left; exists z; auto].
    + intros c (z & [<-|Hz] & Hc); [right; exact Hc|left; exists z; auto].
Qed.
Theorem C39_uzawa : forall solve mvm n1 n2 A11 N11 B F I b1 b2 x1 x2 r2 p2 a1 s2 f1' f2 y m,
  pc_ok solve n1 N11 F I -> op_ok (fun al u v => mvm al false u v) n2 n1 B F I ->
  op_ok (fun al u v => mvm al true u v) n1 n2 (tr true B) F I ->
  hermitian n1 A11 -> (forall i j, i < n1 -> j < n1 -> mmul n1 A11 N11 i j = idf i j) ->
  I m -> vval m b1 f1' -> vval m b2 f2 -> valloc m x1 -> vval m x2 y ->
  valloc m r2 -> valloc m p2 -> valloc m a1 -> valloc m s2 ->
  separate F [b1; b2; x1; x2; r2; p2; a1; s2] ->
  Forall (fun v => vdim v = n1) [b1; x1; a1] -> Forall (fun v => vdim v = n2) [b2; x2; r2; p2; s2] ->
  exists X1 X2 P, cgseq n2 (schurc n1 N11 B) idf (fun i => mvec n1 B (mvec n1 N11 f1') i - f2 i)%F X2 P /\ (forall i, X2 0 i = y i) /\
    (forall k i, i < n1 -> (mvec n1 A11 (X1 k) i + mvec n2 (tr true B) (X2 k) i)%F = f1' i) /\
    (definite n2 (schurc n1 N11 B) -> definite n2 (K := K) idf ->
       exists k, k <= n2 /\ forall i, i < n2 -> mvec n1 B (X1 k) i = f2 i) /\
    forall k, ends (bind (init_uzawa solve mvm b1 b2 x1 x2 r2 p2 a1 s2)
        (fun _ => times k (step_uzawa solve mvm b1 b2 x1 x2 r2 p2 a1 s2))) m
      (fun _ m' => vval m' x1 (X1 k) /\ vval m' x2 (X2 k) /\ vval m' r2 (fun i => mvec n1 B (X1 k) i - f2 i)%F /\
         vval m' p2 (P k) /\ keeps (inany [x1; x2; r2; p2; a1; s2]) m m').
Proof.
  intros solve mvm n1 n2 A11 N11 B F I b1 b2 x1 x2 r2 p2 a1 s2 g1 g2 y m Hsol HF HT HA Hinv HI Hb1 Hb2 Hx1 Hx2 Hr Hp Ha Hs2 Hs Hd1 Hd2.
  assert (Hid : forall (v : nat -> K) i, i < n2 -> v i = mvec n2 idf v i) by (intros; symmetry; apply (mvec_id L); assumption).
  exists (u1 n1 n2 N11 B (fun v => v) g1 g2 y), (u2 n1 n2 N11 B (fun v => v) g1 g2 y), (uP n1 n2 N11 B (fun v => v) g1 g2 y).
  split; [apply (uzawa_seq L n1 n2 A11 N11 B idf HA Hinv); exact Hid|]. split; [reflexivity|].
  split; [apply (uz_row1 L n1 n2 A11 N11 B _ Hinv)|].
  split; [apply (uzawa_end L n1 n2 A11 N11 B idf HA Hinv); [exact Hid|]|].
  { intros i j _ _. unfold idf. rewrite Nat.eqb_sym. destruct (j =? i); [rewrite (fconj_1 (fl_ring K L))|rewrite (fconj_0 (fl_ring K L))]; reflexivity. }
  intros k. apply wp_ends.
  eapply (w_uzawa L solve mvm n1 n2 N11 B F I Hsol HF HT b1 b2 x1 x2 r2 p2 a1 s2 Hs Hd1 Hd2 m m g1 g2 y k None None None None None).
  { split; [exact HI|]. split; [apply keeps_refl|]. repeat constructor; assumption. }
  intros m' o7 o8 Hst.
  split; [exact (vst_get _ _ _ _ _ 2 x1 _ Hst eq_refl eq_refl)|]. split; [exact (vst_get _ _ _ _ _ 3 x2 _ Hst eq_refl eq_refl)|].
  split; [|split].
  - eapply vval_ext; [exact (vst_get _ _ _ _ _ 4 r2 _ Hst eq_refl eq_refl)|]. intros i Hi. apply (uz_row2 L).
  - exact (vst_get _ _ _ _ _ 5 p2 _ Hst eq_refl eq_refl).
  - eapply keeps_drop; [|exact Hb2|exact (vst_get _ _ _ _ _ 1 b2 _ Hst eq_refl eq_refl)|].
    + eapply (keeps_drop _ (inany [b2; x1; x2; r2; p2; a1; s2])); [exact (proj1 (proj2 Hst))|exact Hb1|exact (vst_get _ _ _ _ _ 0 b1 _ Hst eq_refl eq_refl)|].
      intros c (z & [<-|Hz] & Hc); [right; exact Hc|left; exists z; auto].
    + intros c (z & [<-|Hz] & Hc); [right; exact Hc|left; exists z; auto].
Qed.

(** ** C41: iteration limits *)

(** The solver stops with the first iterate whose residual is small enough, or after
    [maxiter - 1] steps; with [maxiter = 0] after [2^32 - 1] steps. Only [x] changes. *)
Theorem C41_solve_cg_partial : forall (O : qops K) ev n A F I b x bf xf eps maxiter m,
  op_ok ev n n A F I -> I m -> vval m b bf -> vval m x xf -> vdim b = n -> vdim x = n -> (N.of_nat maxiter < 2 ^ 32)%N ->
  disj (inv b) (inv x) -> disj F (inv b) -> disj F (inv x) ->
  exists X P, cgseq n A idf bf X P /\ (forall i, X 0 i = xf i) /\
    let err k := rsqrt O (dot n (resid n A bf X k) (resid n A bf X k)) in
    let tol := (eps * rsqrt O (dot n bf bf))%F in
    ends (solve_cg_avector O ev b x eps maxiter) m (fun iter m' =>
      vval m' x (X iter) /\ keeps (inv x) m m' /\
      iter <= (if maxiter =? 0 then N.to_nat (2 ^ 32 - 1) else maxiter - 1) /\
      (gtb O (err iter) tol = false \/ iter = (if maxiter =? 0 then N.to_nat (2 ^ 32 - 1) else maxiter - 1)) /\
      (forall j, j < iter -> gtb O (err j) tol = true) /\
      (hermitian n A -> definite n A -> definite n (K := K) idf -> gtb O (rsqrt O f0) tol = false -> iter <= n)).
Proof.
  intros O ev n A F I b x bf xf eps maxiter m Hev HI Hb Hx Hdb Hdx Hmax Hbx HFb HFx.
  exists (cX n A (fun v => v) bf xf), (cP n A (fun v => v) bf xf).
  split; [apply (cg_seq L)|]. split; [reflexivity|]. intros err tol. apply wp_ends.
  assert (EE : forall k, rsqrt O (dot n (cR n A (fun v => v) bf xf k) (cR n A (fun v => v) bf xf k)) = err k).
  { intros k. unfold err. f_equal. apply dot_ext'; intros; apply (cg_res L); assumption. }
  assert (EU : upred maxiter = (if maxiter =? 0 then N.to_nat (2 ^ 32 - 1) else maxiter - 1)).
  { destruct (Nat.eqb_spec maxiter 0) as [->|N0]; [unfold upred; f_equal|apply upred_S; [lia|exact Hmax]]. }
  eapply (solve_cg_wp L O ev n A F I Hev b x bf xf m); try assumption.
  intros it m' Hit Hx' Hk Hend Hbef. rewrite EU in *. split; [exact Hx'|]. split; [exact Hk|]. split; [exact Hit|].
  split; [destruct Hend as [->|E]; [right; reflexivity|left; rewrite <- EE; exact E]|].
  split; [intros j Hj; rewrite <- EE; apply Hbef; exact Hj|].
  intros HA dA dI Hz.
  assert (HId : hermitian n (K := K) idf).
  { intros i j _ _. unfold idf. rewrite Nat.eqb_sym. destruct (j =? i); [rewrite (fconj_1 (fl_ring K L))|rewrite (fconj_0 (fl_ring K L))]; reflexivity. }
  destruct (C38_terminates n A idf bf _ _ HA HId dA dI (cg_seq L n A bf xf)) as (k & Hkn & E).
  destruct (le_lt_dec it k) as [|Hlt]; [lia|]. exfalso. specialize (Hbef k Hlt). rewrite EE in Hbef. unfold err in Hbef.
  rewrite (dot_0 L) in Hbef; [unfold tol in Hz; congruence|]. intros i Hi. unfold resid. rewrite (E i Hi). ring.
Qed.
Theorem C41_solve_pcg_partial : forall (O : qops K) ev pc n A N F I b x bf xf eps maxiter m,
  op_ok ev n n A F I -> prcd_ok pc n N F I -> I m -> vval m b bf -> vval m x xf -> vdim b = n -> vdim x = n -> (N.of_nat maxiter < 2 ^ 32)%N ->
  disj (inv b) (inv x) -> disj F (inv b) -> disj F (inv x) ->
  exists X P, cgseq n A N bf X P /\ (forall i, X 0 i = xf i) /\
    let err k := rsqrt O (dot n (resid n A bf X k) (resid n A bf X k)) in
    let tol := (eps * rsqrt O (dot n bf bf))%F in
    ends (solve_pcg_avector O ev pc b x eps maxiter) m (fun iter m' =>
      vval m' x (X iter) /\ keeps (inv x) m m' /\
      iter <= (if maxiter =? 0 then N.to_nat (2 ^ 32 - 1) else maxiter - 1) /\
      (gtb O (err iter) tol = false \/ iter = (if maxiter =? 0 then N.to_nat (2 ^ 32 - 1) else maxiter - 1)) /\
      (forall j, j < iter -> gtb O (err j) tol = true) /\
      (hermitian n A -> hermitian n N -> definite n A -> definite n N -> gtb O (rsqrt O f0) tol = false -> iter <= n)).
Proof.
  intros O ev pc n A N F I b x bf xf eps maxiter m Hev Hpc HI Hb Hx Hdb Hdx Hmax Hbx HFb HFx.
  exists (cX n A (mvec n N) bf xf), (cP n A (mvec n N) bf xf).
  split; [apply (pcg_seq L)|]. split; [reflexivity|]. intros err tol. apply wp_ends.
  assert (EE : forall k, rsqrt O (dot n (cR n A (mvec n N) bf xf k) (cR n A (mvec n N) bf xf k)) = err k).
  { intros k. unfold err. f_equal. apply dot_ext'; intros; apply (cg_res L); assumption. }
  assert (EU : upred maxiter = (if maxiter =? 0 then N.to_nat (2 ^ 32 - 1) else maxiter - 1)).
  { destruct (Nat.eqb_spec maxiter 0) as [->|N0]; [unfold upred; f_equal|apply upred_S; [lia|exact Hmax]]. }
  eapply (solve_pcg_wp L O ev pc n A N F I Hev Hpc b x bf xf m); try assumption.
  intros it m' Hit Hx' Hk Hend Hbef. rewrite EU in *. split; [exact Hx'|]. split; [exact Hk|]. split; [exact Hit|].
  split; [destruct Hend as [->|E]; [right; reflexivity|left; rewrite <- EE; exact E]|].
  split; [intros j Hj; rewrite <- EE; apply Hbef; exact Hj|].
  intros HA HN dA dN Hz. destruct (C38_terminates n A N bf _ _ HA HN dA dN (pcg_seq L n A N bf xf)) as (k & Hkn & E).
  destruct (le_lt_dec it k) as [|Hlt]; [lia|]. exfalso. specialize (Hbef k Hlt). rewrite EE in Hbef. unfold err in Hbef.
  rewrite (dot_0 L) in Hbef; [unfold tol in Hz; congruence|]. intros i Hi. unfold resid. rewrite (E i Hi). ring.
Qed.

(** Contrary to the documentation, [maxiter = 1] does not perform any iteration. *)
Theorem C41_maxiter_refuted : forall (O : qops K) ev n A F I b x bf xf eps m,
  op_ok ev n n A F I -> I m -> vval m b bf -> vval m x xf -> vdim b = n -> vdim x = n ->
  disj (inv b) (inv x) -> disj F (inv b) -> disj F (inv x) ->
  ends (solve_cg_avector O ev b x eps 1) m (fun iter m' => iter = 0 /\ vval m' x xf /\ keeps (inv x) m m').
Proof.
  intros O ev n A F I b x bf xf eps m Hev HI Hb Hx Hdb Hdx Hbx HFb HFx.
  destruct (C41_solve_cg_partial O ev n A F I b x bf xf eps 1 m) as (X & P & _ & HX0 & H); try assumption; [reflexivity|].
  destruct H as (it & m' & Hrun & Hx' & Hk & Hit & _). exists it, m'. split; [exact Hrun|].
  change (1 =? 0) with false in Hit. cbv iota in Hit. assert (it = 0) as -> by lia. split; [reflexivity|]. split; [|exact Hk]. eapply vval_ext; [exact Hx'|]. intros; apply HX0.
Qed.
End CG.

(** Over the complex numbers, the step lengths of [step_bicg] lack a conjugation: for the
    system [i x = 1], one step leads from the residual [1] to the residual [2] instead of the
    solution. No division by zero occurs. *)
Definition bgL : list (list GQf) := [[gq 0 1]; [gq 1 0]; [gq 0 0]; [gq 0 0]; [gq 0 0]; [gq 0 0]; [gq 0 0]; [gq 0 0]; [gq 0 0]].
Definition bgA : mat := Mat 0 0 1 1 1 true.
Definition bgv (k : nat) : vec := Vec k 0 1 true.
Definition bgprog (k : nat) : prog GQf unit :=
  bind (init_bicg (fun al u v => addeval_amatrix_avector al bgA u v) (fun al u v => addevaltrans_amatrix_avector al bgA u v)
          (bgv 1) (bgv 2) (bgv 3) (bgv 4) (bgv 5) (bgv 6) (bgv 7) (bgv 8))
       (fun _ => times k (step_bicg (fun al u v => addeval_amatrix_avector al bgA u v) (fun al u v => addevaltrans_amatrix_avector al bgA u v)
          (bgv 1) (bgv 2) (bgv 3) (bgv 4) (bgv 5) (bgv 6) (bgv 7) (bgv 8))).
Theorem C39_bicg_complex_refuted :
  ends (bgprog 1) (mem_of bgL) (fun _ m' => vval m' (bgv 2) (fun _ => gq 0 1) /\ vval m' (bgv 3) (fun _ => gq 2 0)).
Proof.
  eexists _, _. split; [vm_compute; reflexivity|].
  split; intros i Hi; cbn in Hi; (destruct i as [|i]; [vm_compute; reflexivity|lia]).
Qed.

(** ** Examples *)

(** A positive definite real system with non-zero right-hand side. *)
Definition kR : list (list Rf) := map (map Rdefinitions.IZR) [[2; 1; 1; 3]; [1; 2]; [0; 1]; [0; 0]; [0; 0]; [0; 0]; [0; 0]]%Z.
Definition kM : mat := Mat 0 0 2 2 2 true.
Definition kv (k : nat) : vec := Vec k 0 2 true.
Example C38_hyps :
  field_laws Rf /\ op_ok (fun al u v => addeval_amatrix_avector al kM u v) 2 2 kA (inm kM) (fun m => mval m kM kA) /\
  prcd_ok (Some (fun v => scale_avector (Rdefinitions.IZR 2 : Rf) v)) 2 (fun i j => (Rdefinitions.IZR 2 : Rf) * idf i j)%F (fun _ => False) (fun _ => True) /\
  mval (mem_of kR) kM kA /\ vval (mem_of kR) (kv 1) (vof kR (kv 1)) /\ vval (mem_of kR) (kv 2) (vof kR (kv 2)) /\
  valloc (mem_of kR) (kv 3) /\ valloc (mem_of kR) (kv 4) /\ valloc (mem_of kR) (kv 5) /\ valloc (mem_of kR) (kv 6) /\
  separate (inm kM) [kv 1; kv 2; kv 3; kv 4; kv 5; kv 6] /\ Forall (fun v => vdim v = 2) [kv 1; kv 2; kv 3; kv 4; kv 5; kv 6] /\
  hermitian 2 kA /\ definite 2 kA /\ definite 2 (K := Rf) idf /\ (f1 + f1 : Rf)%F <> f0 /\
  gtb (Rq almost_zero) (rsqrt (Rq almost_zero) f0) ((Rdefinitions.IZR 1 : Rf) * rsqrt (Rq almost_zero) (dot 2 (vof kR (kv 1)) (vof kR (kv 1))))%F = false.
Proof.
  split; [exact Rf_field|]. split; [exact (op_amatrix kM kA)|]. split; [exact (pc_scale Rf_field _ _)|].
  split. { intros i j Hi Hj. cbn in Hi, Hj. do 2 (destruct i as [|i]; [do 2 (destruct j as [|j]; [reflexivity|]); lia|]). lia. }
  do 2 (split; [intros i Hi; cbn in Hi; do 2 (destruct i as [|i]; [reflexivity|]); lia|]).
  do 4 (split; [intros i Hi; cbn in Hi; do 2 (destruct i as [|i]; [discriminate|]); lia|]).
  split. { cbn [separate In]. repeat split; try (apply disj_mv_blk; discriminate); intros y; intuition (subst; apply disj_vv_blk; discriminate). }
  split; [repeat constructor|]. split; [exact kA_herm|]. split; [exact kA_def|]. split; [exact (id_def 2)|]. split; [exact R_two|].
  exact (tol_ok (vof kR (kv 1))).
Qed.
(** A saddle point problem: the scalar block [A11 = 2] on [R^2] with inverse [1/2], [A21 = (1 1)],
    Schur complement [1]. *)
Example C39_hyps_uzawa :
  pc_ok (fun v => scale_avector Rhalf v) 2 (fun i j => Rhalf * idf i j : Rf)%F (fun _ => False) (fun _ : mem Rf => True) /\
  hermitian 2 (fun i j => (Rdefinitions.IZR 2 : Rf) * idf i j)%F /\
  (forall i j, i < 2 -> j < 2 -> mmul 2 (fun i j => (Rdefinitions.IZR 2 : Rf) * idf i j)%F (fun i j => Rhalf * idf i j : Rf)%F i j = idf i j) /\
  (forall t, op_ok (fun al u v => mvm_amatrix_avector al t (Mat 0 0 1 1 2 true) u v) (if t : bool then 2 else 1) (if t then 1 else 2)
     (tr t (fun _ _ => Rdefinitions.IZR 1 : Rf)) (inm (Mat 0 0 1 1 2 true)) (fun m => mval m (Mat 0 0 1 1 2 true) (fun _ _ => Rdefinitions.IZR 1))) /\
  definite 1 (schurc 2 (fun i j => Rhalf * idf i j : Rf)%F (fun _ _ => Rdefinitions.IZR 1 : Rf)).
Proof.
  split; [exact (pc_scale Rf_field _ _)|]. split; [|split; [|split; [|exact uz_def]]].
  - intros i j Hi Hj. destruct i as [|[|i]], j as [|[|j]]; try lia; reflexivity.
  - exact uz_inv.
  - intros t. exact (op_mvm (Mat 0 0 1 1 2 true) (fun _ _ => Rdefinitions.IZR 1 : Rf) t).
Qed.
(** Real BiCG: trivial conjugation and a first step without breakdown. *)
Example C39_hyps_bicg : (forall a : Rf, fconj a = a) /\
  let r : nat -> Rf := vof kR (kv 1) in dot 2 (mvec 2 kA r) r <> f0 /\ dot 2 r r <> f0.
Proof. split; [exact R_conj|]. exact bicg_first. Qed.
(** BiCGStab: the intermediate residual of the first step does not vanish. *)
Example C39_hyps_bicgstab : let r : nat -> Rf := vof kR (kv 1) in
  let s := bss 2 kA r r r in dot 2 (mvec 2 kA s) (mvec 2 kA s) <> f0.
Proof. exact stab_first. Qed.

Print Assumptions C38_cg.
Print Assumptions C38_pcg.
Print Assumptions C38_orthogonal.
Print Assumptions C38_nobreak.
Print Assumptions C38_terminates.
Print Assumptions C38_optimal.
Print Assumptions C38_evalfunctional.
Print Assumptions C39_bicg.
Print Assumptions C39_bicg_orthogonal.
Print Assumptions C39_bicg_terminates.
Print Assumptions C39_bicgstab.
Print Assumptions C39_bicgstab_minimal.
Print Assumptions C39_puzawa.
Print Assumptions C39_uzawa.
Print Assumptions C39_bicg_complex_refuted.
Print Assumptions C41_solve_cg_partial.
Print Assumptions C41_solve_pcg_partial.
Print Assumptions C41_maxiter_refuted.
Print Assumptions C38_hyps.
