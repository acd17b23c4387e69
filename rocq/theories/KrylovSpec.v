(** * Vocabulary for the Krylov methods *)
From Coq Require Import Arith List Bool.
From Verif Require Import Fld Prog View Spec.

Section Spec.
Context {K : fops}.
Implicit Types (m : mem K) (F : addr -> Prop) (x y : vec).

(** [k] executions of [p]. *)
Fixpoint times (k : nat) (p : prog K unit) : prog K unit :=
  match k with 0 => Ret tt | S k' => bind (times k' p) (fun _ => p) end.

(** [ev alpha x y] computes [y + alpha M x] for an [r] times [c] matrix [M] whose
    representation occupies the cells [F] and satisfies [I]. *)
Record op_ok (ev : K -> vec -> vec -> prog K unit) (r c : nat) (M : nat -> nat -> K) F (I : mem K -> Prop) : Prop := OpOk {
  op_keep : forall m m' (W : addr -> Prop), I m -> keeps W m m' -> disj F W -> I m';
  op_old : forall m a, I m -> F a -> fst a < next m;
  op_ev : forall alpha x y f g m,
    I m -> vval m x f -> vval m y g -> vdim x = c -> vdim y = r -> disj (inv x) (inv y) -> disj F (inv y) ->
    ends (ev alpha x y) m (fun _ m' => vval m' y (fun i => g i + alpha * mvec c M f i)%F /\ keeps (inv y) m m')
}.

(** [pc x] replaces [x] by [N x] for an [n] times [n] matrix [N]. *)
Record pc_ok (pc : vec -> prog K unit) (n : nat) (N : nat -> nat -> K) F (I : mem K -> Prop) : Prop := PcOk {
  pc_keep : forall m m' (W : addr -> Prop), I m -> keeps W m m' -> disj F W -> I m';
  pc_old : forall m a, I m -> F a -> fst a < next m;
  pc_ev : forall x f m, I m -> vval m x f -> vdim x = n -> disj F (inv x) ->
    ends (pc x) m (fun _ m' => vval m' x (mvec n N f) /\ keeps (inv x) m m')
}.

(** The matrix of an optional preconditioner; no preconditioner is the identity. *)
Definition prcd_ok (pc : option (vec -> prog K unit)) (n : nat) (N : nat -> nat -> K) F (I : mem K -> Prop) : Prop :=
  match pc with
  | Some p => pc_ok p n N F I
  | None => N = idf /\ (forall m m' (W : addr -> Prop), I m -> keeps W m m' -> disj F W -> I m') /\
      forall m a, I m -> F a -> fst a < next m
  end.

(** Pairwise disjoint vectors that are also disjoint from the cells [F]. *)
Fixpoint separate F (vs : list vec) : Prop :=
  match vs with
  | nil => True
  | cons x vs' => disj F (inv x) /\ (forall y, In y vs' -> disj (inv x) (inv y)) /\ separate F vs'
  end.
Definition inany (vs : list vec) (a : addr) : Prop := exists x, In x vs /\ inv x a.

Definition hermitian (n : nat) (A : nat -> nat -> K) : Prop :=
  forall i j, i < n -> j < n -> A i j = fconj (A j i).

(** [v^* A v] vanishes only for the zero vector. *)
Definition definite (n : nat) (A : nat -> nat -> K) : Prop :=
  forall v : nat -> K, dot n v (mvec n A v) = f0 -> forall i, i < n -> v i = f0.

(** The residual of the [k]-th iterate. *)
Definition resid (n : nat) (A : nat -> nat -> K) (b : nat -> K) (X : nat -> nat -> K) (k i : nat) : K :=
  (b i - mvec n A (X k) i)%F.

(** The preconditioned method of conjugate gradients, as in the literature: iterates [X],
    residuals [R k = b - A X k], search directions [P], preconditioner [N]. *)
Record cgseq (n : nat) (A N : nat -> nat -> K) (b : nat -> K) (X P : nat -> nat -> K) : Prop := CgSeq {
  cs_P0 : forall i, i < n -> P 0 i = mvec n N (resid n A b X 0) i;
  cs_X : forall k i, i < n -> X (S k) i =
    (X k i + dot n (P k) (resid n A b X k) / dot n (P k) (mvec n A (P k)) * P k i)%F;
  cs_P : forall k i, i < n -> P (S k) i =
    (mvec n N (resid n A b X (S k)) i
     - dot n (mvec n A (P k)) (mvec n N (resid n A b X (S k))) / dot n (P k) (mvec n A (P k)) * P k i)%F
}.

(** No division by zero and no zero residual in the first [k] steps. *)
Definition nobreak (n : nat) (A N : nat -> nat -> K) (b : nat -> K) (X P : nat -> nat -> K) (k : nat) : Prop :=
  forall j, j < k -> dot n (P j) (mvec n A (P j)) <> f0 /\ dot n (mvec n N (resid n A b X j)) (resid n A b X j) <> f0.

(** [d] is a linear combination of the first [k] search directions. *)
Definition inspan (n : nat) (P : nat -> nat -> K) (k : nat) (d : nat -> K) : Prop :=
  exists z : nat -> K, forall i, i < n -> d i = sum k (fun j => z j * P j i)%F.

(** The biconjugate gradient method. *)
Record bicgseq (n : nat) (A : nat -> nat -> K) (b : nat -> K) (X Rt P Pt : nat -> nat -> K) : Prop := BicgSeq {
  bs_0 : forall i, i < n -> P 0 i = resid n A b X 0 i /\ Rt 0 i = resid n A b X 0 i /\ Pt 0 i = Rt 0 i;
  bs_X : forall k i, i < n -> X (S k) i =
    (X k i + dot n (resid n A b X k) (Rt k) / dot n (mvec n A (P k)) (Pt k) * P k i)%F;
  bs_Rt : forall k i, i < n -> Rt (S k) i =
    (Rt k i - dot n (resid n A b X k) (Rt k) / dot n (mvec n A (P k)) (Pt k) * mvec n (tr true A) (Pt k) i)%F;
  bs_P : forall k i, i < n -> P (S k) i =
    (resid n A b X (S k) i + dot n (resid n A b X (S k)) (Rt (S k)) / dot n (resid n A b X k) (Rt k) * P k i)%F;
  bs_Pt : forall k i, i < n -> Pt (S k) i =
    (Rt (S k) i + dot n (resid n A b X (S k)) (Rt (S k)) / dot n (resid n A b X k) (Rt k) * Pt k i)%F
}.

(** The stabilised biconjugate gradient method; [rt] is the first residual. *)
Definition bsal (n : nat) (A : nat -> nat -> K) (rt r p : nat -> K) : K := (dot n r rt / dot n (mvec n A p) rt)%F.
Definition bss (n : nat) (A : nat -> nat -> K) (rt r p : nat -> K) (i : nat) : K := (r i - bsal n A rt r p * mvec n A p i)%F.
Definition bsom (n : nat) (A : nat -> nat -> K) (s : nat -> K) : K :=
  (dot n (mvec n A s) s / dot n (mvec n A s) (mvec n A s))%F.
Record bicgstabseq (n : nat) (A : nat -> nat -> K) (b : nat -> K) (X P : nat -> nat -> K) : Prop := BicgstabSeq {
  st_0 : forall i, i < n -> P 0 i = resid n A b X 0 i;
  st_X : forall k i, i < n ->
    let r := resid n A b X in let al := bsal n A (r 0) (r k) (P k) in let s := bss n A (r 0) (r k) (P k) in
    X (S k) i = (X k i + al * P k i + bsom n A s * s i)%F;
  st_P : forall k i, i < n ->
    let r := resid n A b X in let al := bsal n A (r 0) (r k) (P k) in let s := bss n A (r 0) (r k) (P k) in
    let om := bsom n A s in let be := (dot n (r (S k)) (r 0%nat) / dot n (r k) (r 0%nat) * al / om)%F in
    P (S k) i = (r (S k) i + be * (P k i - om * mvec n A (P k) i))%F
}.

(** The Schur complement [B N B^*] of a saddle point problem, [N] the inverse of the first
    diagonal block. *)
Definition schurc (n1 : nat) (N B : nat -> nat -> K) : nat -> nat -> K := mmul n1 B (mmul n1 N (tr true B)).
End Spec.
