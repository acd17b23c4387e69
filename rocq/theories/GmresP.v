(** * Givens rotations *)
From Coq Require Import Arith Lia List Bool.
From Verif Require Import Fld Prog View Spec Loop Avector AvectorP Amatrix Chol CholSpec Qr QrSpec Gmres.

Section Givens.
Context {K : fops} (O : qops K).
Implicit Types (m : mem K) (R W : addr -> Prop).

Definition two (p q : addr) (x : addr) : Prop := x = p \/ x = q.

Lemma two_upd m p q (x y : K) : p <> q -> get m p <> Free -> get m q <> Free ->
  get (upd (upd m p x) q y) p = Val x /\ get (upd (upd m p x) q y) q = Val y /\ keeps (two p q) m (upd (upd m p x) q y).
Proof.
  intros N Hp Hq. assert (Hq' : get (upd m p x) q <> Free) by (rewrite get_upd_other by congruence; exact Hq).
  split; [|split].
  - rewrite get_upd_other by exact N. rewrite get_upd by exact Hp. destruct (addr_eqb_spec p p); congruence.
  - rewrite get_upd by exact Hq'. destruct (addr_eqb_spec q q); congruence.
  - split; [cbn; lia|]. intros b Hb. rewrite !get_upd_other; [reflexivity| |]; intros ->; apply Hb; red; auto.
Qed.

Lemma wp_findapply R W p q a b m (Q : K -> mem K -> Prop) :
  p <> q -> get m p = Val a -> get m q = Val b -> W p -> W q ->
  (forall m', (let '(c, s, rho) := givens_find O a b in
     get m' p = Val (c * a + s * b)%F -> get m' q = Val f0 -> keeps (two p q) m m' -> Q rho m')) ->
  wp R W (findapply_givens O p q) m Q.
Proof.
  intros N Hp Hq Wp Wq HQ. unfold findapply_givens.
  apply wp_bind. eapply wp_pload; [exact Hp|auto|]. cbv beta.
  apply wp_bind. eapply wp_pload; [exact Hq|auto|]. cbv beta.
  destruct (givens_find O a b) as [[c s] rho]. cbv beta iota.
  assert (Fp : get m p <> Free) by congruence. assert (Fq : get m q <> Free) by congruence.
  apply wp_bind. apply wp_pstore; [exact Fp|exact Wp|].
  apply wp_bind. apply wp_pstore; [rewrite get_upd_other by congruence; exact Fq|exact Wq|].
  cbn [wp]. destruct (two_upd m p q (c * a + s * b)%F f0 N Fp Fq) as (E1 & E2 & E3). apply HQ; assumption.
Qed.

Lemma wp_apply_givens R W rho p q a b m (Q : unit -> mem K -> Prop) :
  p <> q -> get m p = Val a -> get m q = Val b -> W p -> W q ->
  (forall m', (let '(c, s) := givens_cs O rho in
     get m' p = Val (c * a + s * b)%F -> get m' q = Val (c * b - s * a)%F -> keeps (two p q) m m' -> Q tt m')) ->
  wp R W (apply_givens O rho p q) m Q.
Proof.
  intros N Hp Hq Wp Wq HQ. unfold apply_givens.
  apply wp_bind. eapply wp_pload; [exact Hp|auto|]. cbv beta.
  apply wp_bind. eapply wp_pload; [exact Hq|auto|]. cbv beta.
  destruct (givens_cs O rho) as [c s]. cbv beta iota.
  assert (Fp : get m p <> Free) by congruence. assert (Fq : get m q <> Free) by congruence.
  apply wp_bind. apply wp_pstore; [exact Fp|exact Wp|].
  apply wp_pstore; [rewrite get_upd_other by congruence; exact Fq|exact Wq|].
  destruct (two_upd m p q (c * a + s * b)%F (c * b - s * a)%F N Fp Fq) as (E1 & E2 & E3). apply HQ; assumption.
Qed.
End Givens.
