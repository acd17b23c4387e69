(** * Merging of low-rank matrices *)
From Coq Require Import Arith Lia List Bool Permutation Ring.
From Verif Require Import Fld Ord Prog Arr View Loop Line Spec Cluster Block Avector Amatrix AvectorP AmatrixP AmatrixP2 Rkmatrix RkSpec RkP Factor FactorSpec FactorP FactorP2 FactorP3 LrP
  Chol CholSpec CholP5 Qr QrSpec QrP QrP2 QrP3 QrP4 QrP7 QrP8 QrP10 CbmSpec CbmP CopSpec OrthoP OrthoP3 SepP SepP2 SepP3 Htrunc HtSpec HtP HtP2 HtP3 Hadd.
Import ListNotations.

Section Math.
Context {K : fops} (L : field_laws K) (O : qops K) (H : qlaws O) (HZ : exact_zero O).
Context (orth : Prop) (good : nat -> (nat -> K) -> Prop) (chosen : nat -> (nat -> K) -> nat -> Prop).
Notation RL := (fl_ring K L).
Add Ring KringMg1 : (rl_ring K (fl_ring K L)).
Implicit Types (f g x y F U V C D W : nat -> nat -> K) (s t : nat -> K).
Notation up F := (tripart false false F).

(** Two matrices below or beside each other *)
Definition below (r1 : nat) f g (i j : nat) : K := if i <? r1 then f i j else g (i - r1) j.
Definition aside (c1 : nat) f g (i j : nat) : K := if j <? c1 then f i j else g i (j - c1).

Lemma thin_r rq c f F t g j i : qrfac O rq c f F t -> i < rq ->
  lowrank c g f j i = sum (Nat.min rq c) (fun r => sum c (fun p => g j p * fconj (up F r p)) * fconj (qmat rq F t (Nat.min rq c) i r))%F.
Proof.
  intros HQ Hi. unfold lowrank.
  transitivity (sum c (fun p => sum (Nat.min rq c) (fun r => g j p * fconj (up F r p) * fconj (qmat rq F t (Nat.min rq c) i r))%F)).
  { apply sum_ext. intros p Hp. rewrite (qrfac_thin L O _ _ _ _ _ HQ HZ i p Hi Hp). rewrite (sum_conj RL), <- (sum_mul_l RL). apply sum_ext. intros r _.
    rewrite (rl_conj_mul K RL). ring. }
  rewrite (sum_swap RL). apply sum_ext. intros r Hr. rewrite (sum_mul_r RL). reflexivity.
Qed.
Lemma qpart_sum n F t k W i l : qpart n F t k W i l = sum k (fun r => qmat n F t k i r * W r l)%F.
Proof. reflexivity. Qed.
Lemma qpart_ip n c f F t W l l' : qrfac O n c f F t -> let k := Nat.min n c in
  sum n (fun i => fconj (qpart n F t k W i l) * qpart n F t k W i l')%F = sum k (fun r => fconj (W r l) * W r l')%F.
Proof. intros HQ k. unfold qpart. exact (orth_comp L n k _ (fun r => W r l) (fun r => W r l') (qrfac_orth O _ _ _ _ _ HQ)). Qed.

Lemma math_merge n r1 k1 y1 F1 t1 x1 r2 k2 y2 F2 t2 x2 C U s V k : let kr1 := Nat.min r1 k1 in let kr2 := Nat.min r2 k2 in let kk := kr1 + kr2 in
  qrfac O r1 k1 y1 F1 t1 -> qrfac O r2 k2 y2 F2 t2 ->
  (forall i r, i < n -> r < kk -> C i r = aside kr1 (fun i r => sum k1 (fun p => x1 i p * fconj (up F1 r p))) (fun i r => sum k2 (fun p => x2 i p * fconj (up F2 r p))) i r)%F ->
  svdspec orth good n kk C U s V -> k <= Nat.min n kk -> chosen (Nat.min n kk) s k ->
  truncated orth good chosen n (r1 + r2) (aside r1 (lowrank k1 x1 y1) (lowrank k2 x2 y2))
    (lowrank k (fun i l => U i l * s l)%F (below r1 (qpart r1 F1 t1 kr1 (tr true V)) (qpart r2 F2 t2 kr2 (fun r l => tr true V (kr1 + r) l)))) k.
Proof.
  intros kr1 kr2 kk HQ1 HQ2 HC (H1 & H2 & H3 & H4) Hk HCh. set (Y := below r1 _ _).
  exists (Nat.min n kk), U, s, Y. split; [assumption|]. split; [unfold kk, kr1, kr2; lia|]. split; [exact H3|]. split; [exact HCh|]. split; [exact H2|]. split.
  { intros HO. destruct (H4 HO) as [O1 O2]. split; [exact O1|]. intros l l' Hl Hl'. rewrite (sum_app RL).
    transitivity (sum kr1 (fun r => fconj (tr true V r l) * tr true V r l') + sum kr2 (fun r => fconj (tr true V (kr1 + r)%nat l) * tr true V (kr1 + r)%nat l'))%F.
    { f_equal.
      - etransitivity; [|exact (qpart_ip r1 k1 y1 F1 t1 (tr true V) l l' HQ1)]. apply sum_ext. intros i Hi. unfold Y, below. rewrite (proj2 (Nat.ltb_lt i r1)) by lia. reflexivity.
      - etransitivity; [|exact (qpart_ip r2 k2 y2 F2 t2 (fun r l => tr true V (kr1 + r) l) l l' HQ2)]. apply sum_ext. intros i Hi. unfold Y, below. rewrite (proj2 (Nat.ltb_ge (r1 + i) r1)) by lia. replace (r1 + i - r1) with i by lia. reflexivity. }
    rewrite <- (sum_app RL kr1 kr2 (fun r => fconj (tr true V r l) * tr true V r l')%F). apply O2; assumption. }
  split.
  - intros j i Hj Hi.
    assert (ST : forall w (q : nat -> K) o, o + w <= kk ->
      sum w (fun r => C j (o + r)%nat * fconj (q r))%F = sum (Nat.min n kk) (fun l => U j l * s l * fconj (sum w (fun r => q r * tr true V (o + r)%nat l)))%F).
    { intros w q o Ho. transitivity (sum w (fun r => sum (Nat.min n kk) (fun l => U j l * s l * V l (o + r)%nat * fconj (q r)))%F).
      { apply sum_ext. intros r Hr. rewrite H1 by lia. rewrite (sum_mul_r RL). reflexivity. }
      rewrite (sum_swap RL). apply sum_ext. intros l _. rewrite (sum_conj RL), <- (sum_mul_l RL). apply sum_ext. intros r _. cbn [tr]. rewrite (rl_conj_mul K RL), (rl_conj_conj K RL). ring. }
    unfold aside at 1. unfold Y, below. destruct (Nat.ltb_spec i r1) as [Hi1|Hi1].
    + rewrite (thin_r r1 k1 y1 F1 t1 x1 j i HQ1 Hi1). etransitivity; [|exact (ST kr1 (fun r => qmat r1 F1 t1 kr1 i r) 0 ltac:(unfold kk; lia))].
      apply sum_ext. intros r Hr. cbn [Nat.add]. rewrite HC by (unfold kk; lia). unfold aside. fold kr1. rewrite (proj2 (Nat.ltb_lt r kr1)) by lia. reflexivity.
    + rewrite (thin_r r2 k2 y2 F2 t2 x2 j (i - r1) HQ2 ltac:(lia)). etransitivity; [|exact (ST kr2 (fun r => qmat r2 F2 t2 kr2 (i - r1) r) kr1 ltac:(unfold kk; lia))].
      apply sum_ext. intros r Hr. rewrite HC by (unfold kk; lia). unfold aside. fold kr1 kr2. rewrite (proj2 (Nat.ltb_ge (kr1 + r) kr1)) by lia. replace (kr1 + r - kr1) with r by lia. reflexivity.
  - intros i j Hi Hj. unfold lowrank. apply sum_ext. intros l _. reflexivity.
Qed.
End Math.
