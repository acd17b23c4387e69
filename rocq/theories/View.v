(** * Views: vectors and matrices as windows into memory blocks

    [vec] models struct _avector (/repo/Library/avector.h:35-49: fields v, dim,
    owner) and [mat] models struct _amatrix (/repo/Library/amatrix.h:39-55:
    fields a, ld, rows, cols, owner).  The pointer [v]/[a] is a pair of block and
    offset.  [vown]/[mown] is true when the C field [owner] is NULL, i.e. when
    the object owns its storage. *)
From Coq Require Import Arith Lia List Bool.
From Verif Require Import Fld Prog.
Import ListNotations.

Record vec := Vec { vblk : nat; voff : nat; vdim : nat; vown : bool }.
Record mat := Mat { mblk : nat; moff : nat; mld : nat; mrows : nat; mcols : nat; mown : bool }.

(** [x->v + i] *)
Definition va (x : vec) (i : nat) : addr := (vblk x, voff x + i).
(** [a->a + i + j * a->ld] *)
Definition ma (A : mat) (i j : nat) : addr := (mblk A, moff A + (i + j * mld A)).

Definition vload {K} (x : vec) (i : nat) : prog K K := pload (va x i).
Definition vstore {K} (x : vec) (i : nat) (v : K) : prog K unit := pstore (va x i) v.
Definition mload {K} (A : mat) (i j : nat) : prog K K := pload (ma A i j).
Definition mstore {K} (A : mat) (i j : nat) (v : K) : prog K unit := pstore (ma A i j) v.

(** Cells belonging to a view. *)
Definition inv (x : vec) (a : addr) : Prop := exists i, i < vdim x /\ a = va x i.
Definition inm (A : mat) (a : addr) : Prop :=
  exists i j, i < mrows A /\ j < mcols A /\ a = ma A i j.

(** Contents of a view as a mathematical vector / matrix. *)
Definition vval {K} (m : mem K) (x : vec) (f : nat -> K) : Prop :=
  forall i, i < vdim x -> get m (va x i) = Val (f i).
Definition mval {K} (m : mem K) (A : mat) (f : nat -> nat -> K) : Prop :=
  forall i j, i < mrows A -> j < mcols A -> get m (ma A i j) = Val (f i j).

(** The cells of a view are allocated (contents possibly uninitialised). *)
Definition valloc {K} (m : mem K) (x : vec) : Prop :=
  forall i, i < vdim x -> get m (va x i) <> Free.
Definition malloc {K} (m : mem K) (A : mat) : Prop :=
  forall i j, i < mrows A -> j < mcols A -> get m (ma A i j) <> Free.

(** Columns do not overlap. *)
Definition mwf (A : mat) : Prop := mrows A <= mld A.

Definition disj (P Q : addr -> Prop) : Prop := forall a, P a -> Q a -> False.

(** Only cells in [W] may have changed; in particular no block stays allocated
    that was not allocated before. *)
Definition keeps {K} (W : addr -> Prop) (m m' : mem K) : Prop :=
  next m <= next m' /\ forall a, ~ W a -> get m' a = get m a.

(** Permissions for the program logic. *)
Definition rdok (R W P : addr -> Prop) : Prop := forall a, P a -> R a \/ W a.
Definition wrok (W P : addr -> Prop) : Prop := forall a, P a -> W a.

Definition fupd {A} (f : nat -> A) (i : nat) (v : A) : nat -> A :=
  fun k => if k =? i then v else f k.
Definition fupd2 {A} (f : nat -> nat -> A) (i j : nat) (v : A) : nat -> nat -> A :=
  fun k l => if (k =? i) && (l =? j) then v else f k l.

(** ** Address facts *)
Lemma va_inj x i j : va x i = va x j -> i = j.
Proof. unfold va. intros [= H]. lia. Qed.

Lemma col_inj (ld i j i' j' : nat) :
  i < ld -> i' < ld -> i + j * ld = i' + j' * ld -> i = i' /\ j = j'.
Proof.
  intros Hi Hi' H.
  assert (j = j').
  { destruct (Nat.lt_trichotomy j j') as [Hl|[He|Hl]]; [|exact He|].
    - exfalso. assert (S j * ld <= j' * ld) by (apply Nat.mul_le_mono_r; lia). cbn in *. lia.
    - exfalso. assert (S j' * ld <= j * ld) by (apply Nat.mul_le_mono_r; lia). cbn in *. lia. }
  subst. lia.
Qed.

Lemma ma_inj A i j i' j' : mwf A -> i < mrows A -> i' < mrows A ->
  ma A i j = ma A i' j' -> i = i' /\ j = j'.
Proof.
  unfold mwf, ma. intros Hw Hi Hi' [= H]. apply (col_inj (mld A)); lia.
Qed.

Lemma inv_va x i : i < vdim x -> inv x (va x i).
Proof. intros H. exists i. auto. Qed.
Lemma inm_ma A i j : i < mrows A -> j < mcols A -> inm A (ma A i j).
Proof. intros H H'. exists i, j. auto. Qed.
#[global] Hint Resolve inv_va inm_ma : view.

Lemma disj_sym P Q : disj P Q -> disj Q P.
Proof. intros H a Hq Hp. exact (H a Hp Hq). Qed.

Lemma disj_sub (P P' Q Q' : addr -> Prop) : (forall a, P' a -> P a) -> (forall a, Q' a -> Q a) ->
  disj P Q -> disj P' Q'.
Proof. intros HP HQ H a Hp Hq. exact (H a (HP a Hp) (HQ a Hq)). Qed.

(** ** keeps *)
Lemma keeps_refl {K} W (m : mem K) : keeps W m m.
Proof. split; auto. Qed.

Lemma keeps_trans {K} W (m1 m2 m3 : mem K) :
  keeps W m1 m2 -> keeps W m2 m3 -> keeps W m1 m3.
Proof.
  intros [H1 H2] [H3 H4]. split; [lia|]. intros a Ha. rewrite H4, H2; auto.
Qed.

Lemma keeps_mono {K} (W W' : addr -> Prop) (m m' : mem K) :
  (forall a, W a -> W' a) -> keeps W m m' -> keeps W' m m'.
Proof. intros H [H1 H2]. split; [exact H1|]. intros a Ha. apply H2. auto. Qed.

Lemma keeps_upd {K} (W : addr -> Prop) (m : mem K) a v : W a -> keeps W m (upd m a v).
Proof.
  intros H. split; [cbn; lia|]. intros b Hb. apply get_upd_other. intros ->. auto.
Qed.

Lemma keeps_upd_r {K} (W : addr -> Prop) (m m' : mem K) a v :
  keeps W m m' -> W a -> keeps W m (upd m' a v).
Proof. intros H Ha. eapply keeps_trans; [exact H|]. apply keeps_upd. exact Ha. Qed.

(** ** vval / mval *)
Lemma vval_ext {K} (m : mem K) x f g :
  vval m x f -> (forall i, i < vdim x -> f i = g i) -> vval m x g.
Proof. intros H E i Hi. rewrite <- E by exact Hi. auto. Qed.

Lemma mval_ext {K} (m : mem K) A f g :
  mval m A f -> (forall i j, i < mrows A -> j < mcols A -> f i j = g i j) -> mval m A g.
Proof. intros H E i j Hi Hj. rewrite <- E by assumption. auto. Qed.

Lemma vval_alloc {K} (m : mem K) x f : vval m x f -> valloc m x.
Proof. intros H i Hi. rewrite H by exact Hi. discriminate. Qed.
Lemma mval_alloc {K} (m : mem K) A f : mval m A f -> malloc m A.
Proof. intros H i j Hi Hj. rewrite H by assumption. discriminate. Qed.
#[global] Hint Resolve vval_alloc mval_alloc : view.

Lemma vval_keeps {K} (W : addr -> Prop) (m m' : mem K) x f :
  vval m x f -> keeps W m m' -> disj (inv x) W -> vval m' x f.
Proof.
  intros H [_ Hk] Hd i Hi. rewrite Hk; [auto|]. intros Hw. apply (Hd (va x i)); auto with view.
Qed.

Lemma mval_keeps {K} (W : addr -> Prop) (m m' : mem K) A f :
  mval m A f -> keeps W m m' -> disj (inm A) W -> mval m' A f.
Proof.
  intros H [_ Hk] Hd i j Hi Hj. rewrite Hk; [auto|].
  intros Hw. apply (Hd (ma A i j)); auto with view.
Qed.

Lemma valloc_keeps {K} (W : addr -> Prop) (m m' : mem K) x :
  valloc m x -> keeps W m m' -> disj (inv x) W -> valloc m' x.
Proof.
  intros H [_ Hk] Hd i Hi. rewrite Hk; [auto|]. intros Hw. apply (Hd (va x i)); auto with view.
Qed.

Lemma malloc_keeps {K} (W : addr -> Prop) (m m' : mem K) A :
  malloc m A -> keeps W m m' -> disj (inm A) W -> malloc m' A.
Proof.
  intros H [_ Hk] Hd i j Hi Hj. rewrite Hk; [auto|].
  intros Hw. apply (Hd (ma A i j)); auto with view.
Qed.

Lemma get_upd_nfree {K} (m : mem K) a v b : get m b <> Free -> get (upd m a v) b <> Free.
Proof.
  intros H. destruct (addr_eqb_spec b a) as [->|Hne].
  - rewrite get_upd by exact H. destruct (addr_eqb_spec a a); congruence.
  - rewrite get_upd_other by exact Hne. exact H.
Qed.

Lemma valloc_upd {K} (m : mem K) x a v : valloc m x -> valloc (upd m a v) x.
Proof. intros H i Hi. apply get_upd_nfree. auto. Qed.
Lemma malloc_upd {K} (m : mem K) A a v : malloc m A -> malloc (upd m a v) A.
Proof. intros H i j Hi Hj. apply get_upd_nfree. auto. Qed.
#[global] Hint Resolve valloc_upd malloc_upd : view.

Lemma vval_upd_same {K} (m : mem K) x f i v :
  vval m x f -> i < vdim x -> vval (upd m (va x i) v) x (fupd f i v).
Proof.
  intros H Hi k Hk. rewrite get_upd by (rewrite H by exact Hi; discriminate).
  unfold fupd. destruct (addr_eqb_spec (va x k) (va x i)) as [E|E].
  - apply va_inj in E. subst. rewrite Nat.eqb_refl. reflexivity.
  - destruct (Nat.eqb_spec k i); [congruence|]. auto.
Qed.

Lemma vval_upd_other {K} (m : mem K) x f a v :
  vval m x f -> ~ inv x a -> vval (upd m a v) x f.
Proof.
  intros H Hn k Hk. rewrite get_upd_other; [auto|]. intros <-. apply Hn. auto with view.
Qed.

Lemma mval_upd_same {K} (m : mem K) A f i j v :
  mwf A -> mval m A f -> i < mrows A -> j < mcols A ->
  mval (upd m (ma A i j) v) A (fupd2 f i j v).
Proof.
  intros Hw H Hi Hj k l Hk Hl. rewrite get_upd by (rewrite H by assumption; discriminate).
  unfold fupd2. destruct (addr_eqb_spec (ma A k l) (ma A i j)) as [E|E].
  - apply ma_inj in E as [-> ->]; auto. rewrite !Nat.eqb_refl. reflexivity.
  - destruct (Nat.eqb_spec k i), (Nat.eqb_spec l j); cbn; subst; try congruence; auto.
Qed.

Lemma mval_upd_other {K} (m : mem K) A f a v :
  mval m A f -> ~ inm A a -> mval (upd m a v) A f.
Proof.
  intros H Hn k l Hk Hl. rewrite get_upd_other; [auto|].
  intros <-. apply Hn. auto with view.
Qed.

Lemma disj_va {x y i} : disj (inv x) (inv y) -> i < vdim y -> ~ inv x (va y i).
Proof. intros H Hi Hx. apply (H _ Hx). auto with view. Qed.
Lemma disj_vm {x A i j} : disj (inv x) (inm A) -> i < mrows A -> j < mcols A -> ~ inv x (ma A i j).
Proof. intros H Hi Hj Hx. apply (H _ Hx). auto with view. Qed.
Lemma disj_mv {A x i} : disj (inm A) (inv x) -> i < vdim x -> ~ inm A (va x i).
Proof. intros H Hi Hx. apply (H _ Hx). auto with view. Qed.
Lemma disj_mm {A B i j} : disj (inm A) (inm B) -> i < mrows B -> j < mcols B -> ~ inm A (ma B i j).
Proof. intros H Hi Hj Hx. apply (H _ Hx). auto with view. Qed.

(** ** Rules for single accesses *)
Lemma wp_pload {K} (R W : addr -> Prop) a (m : mem K) v (Q : K -> mem K -> Prop) :
  get m a = Val v -> R a \/ W a -> Q v m -> wp R W (pload a) m Q.
Proof. intros H Hr HQ. cbn. split; [exact Hr|]. exists v. auto. Qed.

Lemma wp_pstore {K} (R W : addr -> Prop) a v (m : mem K) (Q : unit -> mem K -> Prop) :
  get m a <> Free -> W a -> Q tt (upd m a v) -> wp R W (pstore a v) m Q.
Proof. intros H Hw HQ. cbn. auto. Qed.

Lemma wp_vload {K} (R W : addr -> Prop) x i (m : mem K) f (Q : K -> mem K -> Prop) :
  vval m x f -> i < vdim x -> rdok R W (inv x) -> Q (f i) m -> wp R W (vload x i) m Q.
Proof. intros H Hi Hr HQ. eapply wp_pload; eauto with view. Qed.

Lemma wp_mload {K} (R W : addr -> Prop) A i j (m : mem K) f (Q : K -> mem K -> Prop) :
  mval m A f -> i < mrows A -> j < mcols A -> rdok R W (inm A) -> Q (f i j) m ->
  wp R W (mload A i j) m Q.
Proof. intros H Hi Hj Hr HQ. eapply wp_pload; eauto with view. Qed.

Lemma wp_vstore {K} (R W : addr -> Prop) x i v (m : mem K) (Q : unit -> mem K -> Prop) :
  valloc m x -> i < vdim x -> wrok W (inv x) -> Q tt (upd m (va x i) v) ->
  wp R W (vstore x i v) m Q.
Proof. intros H Hi Hr HQ. apply wp_pstore; auto with view. Qed.

Lemma wp_mstore {K} (R W : addr -> Prop) A i j v (m : mem K) (Q : unit -> mem K -> Prop) :
  malloc m A -> i < mrows A -> j < mcols A -> wrok W (inm A) -> Q tt (upd m (ma A i j) v) ->
  wp R W (mstore A i j v) m Q.
Proof. intros H Hi Hj Hr HQ. apply wp_pstore; auto with view. Qed.

Lemma rdok_w (R W P : addr -> Prop) : wrok W P -> rdok R W P.
Proof. intros H a Ha. right. auto. Qed.
#[global] Hint Resolve rdok_w : view.

(** Views with the same cells. *)
Lemma vval_disj_blk x y : vblk x <> vblk y -> disj (inv x) (inv y).
Proof. intros H a [i [_ ->]] [j [_ E]]. unfold va in E. congruence. Qed.

Lemma valloc_get {K} (m : mem K) x i : valloc m x -> i < vdim x -> get m (va x i) <> Free.
Proof. intros H Hi. auto. Qed.
Lemma malloc_get {K} (m : mem K) A i j :
  malloc m A -> i < mrows A -> j < mcols A -> get m (ma A i j) <> Free.
Proof. intros H Hi Hj. auto. Qed.
