(** * Truncation of low-rank matrices: products of the factors *)
From Coq Require Import Arith Lia List Bool Permutation Ring.
From Verif Require Import Fld Ord Prog Arr View Loop Line Spec Cluster Block Avector Amatrix AvectorP AmatrixP AmatrixP2 Rkmatrix RkSpec RkP Factor FactorSpec FactorP FactorP2 FactorP3 LrP
  Chol CholSpec CholP5 Qr QrSpec QrP QrP2 QrP3 QrP4 QrP7 QrP8 QrP10 CbmSpec CbmP CopSpec OrthoP OrthoP3 Htrunc HtSpec.
Import ListNotations.

Section P.
Context {K : fops} (L : field_laws K) (O : qops K) (H : qlaws O) (HZ : exact_zero O).
Context (orth : Prop) (good : nat -> (nat -> K) -> Prop) (chosen : nat -> (nat -> K) -> nat -> Prop).
Notation RL := (fl_ring K L).
Add Ring KringHt1 : (rl_ring K (fl_ring K L)).
Implicit Types (f g F FA FB U V C D : nat -> nat -> K) (s t : nat -> K).
Notation up F := (tripart false false F).
Notation svdspec := (svdspec orth good).
Notation truncated := (truncated orth good chosen).

Lemma svdspec_ext r c f g U s V : (forall i j, i < r -> j < c -> g i j = f i j) -> svdspec r c f U s V -> svdspec r c g U s V.
Proof. intros HE (H1 & H2). split; [|exact H2]. intros i j Hi Hj. rewrite HE by assumption. apply H1; assumption. Qed.
Lemma truncated_ext r c D D1 E E1 k : (forall i j, i < r -> j < c -> E i j = D i j) -> (forall i j, i < r -> j < c -> E1 i j = D1 i j) -> truncated r c D D1 k -> truncated r c E E1 k.
Proof.
  intros HE HE1 (n & U & s & V & A1 & A0 & A2 & A3 & A4 & A5 & A6 & A7). exists n, U, s, V. repeat (split; [assumption|]).
  split; intros i j Hi Hj; [rewrite HE by assumption; auto|rewrite HE1 by assumption; auto].
Qed.
Lemma truncated_sym r c D D1 k : truncated r c D D1 k -> truncated c r (fun i j => fconj (D j i)) (fun i j => fconj (D1 j i)) k.
Proof.
  intros (n & U & s & V & A1 & A0 & A2 & A3 & A4 & A5 & A6 & A7). exists n, V, s, U. split; [assumption|]. split; [lia|]. repeat (split; [assumption|]).
  split; [intros HO; destruct (A5 HO); auto|].
  split; intros i j Hi Hj; cbv beta; [rewrite A6 by assumption|rewrite A7 by assumption]; rewrite (sum_conj RL); apply sum_ext; intros l Hl;
    rewrite !(rl_conj_mul K RL), (rl_conj_conj K RL), A4 by lia; ring.
Qed.
Lemma lowrank_conj k f g i j : fconj (lowrank k g f j i) = lowrank k f g i j.
Proof. unfold lowrank. rewrite (sum_conj RL). apply sum_ext. intros l _. rewrite (rl_conj_mul K RL), (rl_conj_conj K RL). ring. Qed.

(** No QR decomposition *)
Lemma math_ab r c D U s V k : svdspec r c D U s V -> k <= Nat.min r c -> chosen (Nat.min r c) s k ->
  truncated r c D (lowrank k (fun i l => U i l * s l)%F (tr true V)) k.
Proof.
  intros (H1 & H2 & H3 & H4) Hk HC. exists (Nat.min r c), U, s, (fun j l => fconj (V l j)). split; [assumption|]. split; [lia|]. repeat (split; [assumption|]).
  split; intros i j Hi Hj.
  - rewrite H1 by assumption. apply sum_ext. intros l _. rewrite (rl_conj_conj K RL). reflexivity.
  - unfold lowrank. apply sum_ext. intros l _. cbn [tr]. reflexivity.
Qed.

(** QR decomposition of one factor [f]; [g] is the other one *)
Definition qpart (n : nat) F t (k : nat) (W : nat -> nat -> K) (i l : nat) : K := sum k (fun r => qmat n F t k i r * W r l)%F.
Lemma qpart_orth n c f F t k W : qrfac O n c f F t -> c <= n -> orthonormal c k W -> orthonormal n k (qpart n F t c W).
Proof.
  intros HQ Hc HW i j Hi Hj. pose proof (qrfac_orth O _ _ _ _ _ HQ) as HO. rewrite Nat.min_r in HO by exact Hc.
  unfold qpart. rewrite (orth_comp L n c _ (fun r => W r i) (fun r => W r j) HO). apply HW; assumption.
Qed.
Lemma qpart_mmul n F t c W (X : nat -> nat -> K) i l : c <= n -> (forall r, r < c -> X r l = W r l) -> (forall r, c <= r -> r < n -> X r l = f0) ->
  mmul n (qmat n F t c) X i l = qpart n F t c W i l.
Proof.
  intros Hc H1 H2. unfold mmul, qpart. rewrite (sum_pad L n c) by (try lia; intros r Hr Hn; rewrite H2 by lia; ring).
  apply sum_ext. intros r Hr. rewrite H1 by exact Hr. reflexivity.
Qed.
Lemma math_q rq rb c f F t g C U s V k : qrfac O rq c f F t -> c <= rq ->
  (forall i r, i < rb -> r < c -> C i r = sum c (fun p => g i p * fconj (up F r p))%F) ->
  svdspec rb c C U s V -> k <= Nat.min rb c -> chosen (Nat.min rb c) s k ->
  truncated rb rq (lowrank c g f) (lowrank k (fun i l => U i l * s l)%F (qpart rq F t c (tr true V))) k.
Proof.
  intros HQ Hc HC (H1 & H2 & H3 & H4) Hk HCh. exists (Nat.min rb c), U, s, (qpart rq F t c (tr true V)). split; [assumption|]. split; [lia|]. repeat (split; [assumption|]). split.
  { intros HO. destruct (H4 HO) as [O1 O2]. split; [exact O1|]. eapply qpart_orth; [exact HQ|exact Hc|]. exact O2. }
  split; intros j i Hj Hi.
  - unfold lowrank.
    transitivity (sum c (fun p => sum c (fun r => g j p * fconj (up F r p) * fconj (qmat rq F t c i r))%F)).
    { apply sum_ext. intros p Hp. rewrite (qrfac_thin L O _ _ _ _ _ HQ HZ i p Hi Hp), Nat.min_r by exact Hc. rewrite (sum_conj RL), <- (sum_mul_l RL). apply sum_ext. intros r _.
      rewrite (rl_conj_mul K RL). ring. }
    rewrite (sum_swap RL). transitivity (sum c (fun r => C j r * fconj (qmat rq F t c i r))%F).
    { apply sum_ext. intros r Hr. rewrite (sum_mul_r RL). rewrite HC by assumption. reflexivity. }
    transitivity (sum c (fun r => sum (Nat.min rb c) (fun l => U j l * s l * V l r * fconj (qmat rq F t c i r)))%F).
    { apply sum_ext. intros r Hr. rewrite H1 by assumption. rewrite (sum_mul_r RL). reflexivity. }
    rewrite (sum_swap RL). apply sum_ext. intros l _. unfold qpart. rewrite (sum_conj RL), <- (sum_mul_l RL). apply sum_ext. intros r _. cbn [tr].
    rewrite (rl_conj_mul K RL), (rl_conj_conj K RL). ring.
  - unfold lowrank. apply sum_ext. intros l _. reflexivity.
Qed.
(** QR decompositions of both factors *)
Lemma math_qq ra rb c f FA tA g FB tB C U s V k : qrfac O ra c f FA tA -> qrfac O rb c g FB tB -> c <= ra -> c <= rb ->
  (forall i r, i < c -> r < c -> C i r = sum c (fun p => up FA i p * fconj (up FB r p))%F) ->
  svdspec c c C U s V -> k <= c -> chosen c s k ->
  truncated ra rb (lowrank c f g) (lowrank k (qpart ra FA tA c (fun i l => U i l * s l)%F) (qpart rb FB tB c (tr true V))) k.
Proof.
  intros HA HB Hca Hcb HC (H1 & H2 & H3 & H4) Hk HCh. rewrite Nat.min_id in *. exists c, (qpart ra FA tA c U), s, (qpart rb FB tB c (tr true V)). split; [assumption|]. split; [lia|]. repeat (split; [assumption|]). split.
  { intros HO. destruct (H4 HO) as [O1 O2]. split; (eapply qpart_orth; [eassumption|assumption|]); [exact O1|exact O2]. }
  split; intros i j Hi Hj.
  - unfold lowrank.
    transitivity (sum c (fun p => sum c (fun q => sum c (fun r => qmat ra FA tA c i q * (up FA q p * fconj (up FB r p)) * fconj (qmat rb FB tB c j r)))%F)).
    { apply sum_ext. intros p Hp. rewrite (qrfac_thin L O _ _ _ _ _ HA HZ i p Hi Hp), (qrfac_thin L O _ _ _ _ _ HB HZ j p Hj Hp), !Nat.min_r by assumption.
      rewrite (sum_conj RL), <- (sum_mul_r RL). apply sum_ext. intros q _. rewrite <- (sum_mul_l RL). apply sum_ext. intros r _. rewrite (rl_conj_mul K RL). ring. }
    rewrite (sum_swap RL).
    transitivity (sum c (fun q => sum c (fun r => sum c (fun l => qmat ra FA tA c i q * U q l * s l * (V l r * fconj (qmat rb FB tB c j r)))))%F).
    { apply sum_ext. intros q Hq. rewrite (sum_swap RL). apply sum_ext. intros r Hr. rewrite (sum_mul_r RL), (sum_mul_l RL), <- (HC q r Hq Hr), H1 by assumption.
      rewrite <- (sum_mul_l RL), <- (sum_mul_r RL). apply sum_ext. intros l _. ring. }
    transitivity (sum c (fun q => sum c (fun l => qmat ra FA tA c i q * U q l * s l * fconj (qpart rb FB tB c (tr true V) j l)))%F).
    { apply sum_ext. intros q _. rewrite (sum_swap RL). apply sum_ext. intros l _. unfold qpart. rewrite (sum_conj RL), (sum_mul_l RL). f_equal. apply sum_ext. intros r _. cbn [tr].
      rewrite (rl_conj_mul K RL), (rl_conj_conj K RL). ring. }
    rewrite (sum_swap RL). apply sum_ext. intros l _. unfold qpart at 2. rewrite !(sum_mul_r RL). f_equal. 
  - unfold lowrank. apply sum_ext. intros l _. f_equal. unfold qpart. rewrite <- (sum_mul_r RL). apply sum_ext. intros r _. ring.
Qed.
(** QR decomposition of the matrix itself *)
Lemma math_r r c f F t U s V k : qrfac O r c f F t -> c <= r -> svdspec c c (up F) U s V -> k <= c -> chosen c s k ->
  truncated r c f (lowrank k (qpart r F t c U) (tr true (fun l j => s l * V l j)%F)) k.
Proof.
  intros HQ Hc (H1 & H2 & H3 & H4) Hk HCh. rewrite Nat.min_id in *. exists c, (qpart r F t c U), s, (tr true V). split; [assumption|]. split; [lia|]. repeat (split; [assumption|]). split.
  { intros HO. destruct (H4 HO) as [O1 O2]. split; [eapply qpart_orth; eassumption|exact O2]. }
  split; intros i j Hi Hj.
  - rewrite (qrfac_thin L O _ _ _ _ _ HQ HZ i j Hi Hj), Nat.min_r by exact Hc.
    transitivity (sum c (fun q => sum c (fun l => qmat r F t c i q * U q l * s l * V l j))%F).
    { apply sum_ext. intros q Hq. rewrite H1 by assumption. rewrite <- (sum_mul_l RL). apply sum_ext. intros l _. ring. }
    rewrite (sum_swap RL). apply sum_ext. intros l _. unfold qpart. rewrite <- !(sum_mul_r RL). apply sum_ext. intros q _. cbn [tr]. rewrite (rl_conj_conj K RL). ring.
  - unfold lowrank. apply sum_ext. intros l Hl. cbn [tr]. rewrite !(rl_conj_conj K RL). ring.
Qed.
Lemma lowrank_ext k (A B A' B' : nat -> nat -> K) r c i j : (forall i l, i < r -> l < k -> A' i l = A i l) -> (forall i l, i < c -> l < k -> B' i l = B i l) -> i < r -> j < c -> lowrank k A' B' i j = lowrank k A B i j.
Proof. intros HA HB Hi Hj. apply sum_ext. intros l Hl. rewrite HA, HB by assumption. reflexivity. Qed.
End P.
