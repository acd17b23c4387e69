(** * Cluster operators and orthogonalisation, Library/clusteroperator.c and Library/clusterbasis.c

    A cluster operator is a tree of matrices.  As for cluster bases, functions that change an
    operator return the changed value, reference counters are not part of this model and sons that
    are still null are represented by an empty list. *)
From Coq Require Import Arith Lia List Bool.
From Verif Require Import Fld Ord Prog Arr View Cluster Block Avector Amatrix Hmatrix Factor Chol Qr Clusterbasis Cbmgr.
Import ListNotations.

(** struct _clusteroperator, Library/clusteroperator.h:43-64 *)
Inductive clusterop (G : ofops) := CO (t : cptr G) (krow kcol : nat) (C : mat) (son : list (clusterop G)).
Arguments CO {G}.
Definition co_t {G : ofops} (c : clusterop G) := match c with CO x _ _ _ _ => x end.
Definition co_krow {G : ofops} (c : clusterop G) := match c with CO _ x _ _ _ => x end.
Definition co_kcol {G : ofops} (c : clusterop G) := match c with CO _ _ x _ _ => x end.
Definition co_C {G : ofops} (c : clusterop G) := match c with CO _ _ _ x _ => x end.
Definition co_son {G : ofops} (c : clusterop G) := match c with CO _ _ _ _ x => x end.
Definition co_setsons {G : ofops} (c : clusterop G) l := match c with CO t r k C _ => CO t r k C l end.

Section Clusterop.
Context {K : fops} {G : ofops}.
Local Notation cbx := (cbasis G).
Local Notation cox := (clusterop G).

(** Library/clusteroperator.c:37-56, 93-103 [init_leaf_clusteroperator], [new_leaf_clusteroperator];
    lines 18-35, 81-91 [init_clusteroperator], [new_clusteroperator], whose array of sons is filled
    later *)
Definition new_clusteroperator (t : cptr G) : prog K cox := C <- init_amatrix 0 0 ;; Ret (CO t 0 0 C []).

(** Library/clusteroperator.c:172-183 [resize_clusteroperator] *)
Definition resize_clusteroperator (co : cox) (krow kcol : nat) : prog K cox :=
  match co with
  | CO t r c C l =>
      if negb (krow =? r) || negb (kcol =? c) then C1 <- resize_amatrix C krow kcol ;; Ret (CO t krow kcol C1 l) else Ret co
  end.

(** Library/clusteroperator.c:210-227 [build_from_cluster_clusteroperator] *)
Fixpoint build_co (path : list nat) (c : cluster G) {struct c} : prog K cox :=
  co <- new_clusteroperator (CP path c) ;;
  l' <- (match c with Cl _ _ l _ _ _ _ _ =>
           (fix go i l := match l with
            | [] => Ret []
            | s :: l' => s1 <- build_co (i :: path) s ;; r <- go (S i) l' ;; Ret (s1 :: r)
            end) 0 l
         end) ;;
  Ret (co_setsons co l').
Definition build_from_cluster_clusteroperator (t : cptr G) : prog K cox := build_co (cp_path t) (cp_c t).

(** Library/clusteroperator.c:229-249 [build_from_clusterbasis_clusteroperator]: the new operator has
    as many sons as the cluster if the basis has sons, and none otherwise. *)
Fixpoint build_from_clusterbasis_clusteroperator (cb : cbx) : prog K cox :=
  match cb with
  | CB t k _ _ _ _ l _ =>
      co <- new_clusteroperator t ;;
      co <- resize_clusteroperator co 0 k ;;
      l' <- (fix go n l {struct l} := match l, n with
             | _, 0 => Ret []
             | s :: l', S n' => s1 <- build_from_clusterbasis_clusteroperator s ;; r <- go n' l' ;; Ret (s1 :: r)
             | [], S _ => Fail EBounds
             end) (match l with [] => 0 | _ => cp_sons t end) l ;;
      Ret (co_setsons co l')
  end.

(** Library/clusteroperator.c:58-79, 105-111 [uninit_clusteroperator], [del_clusteroperator] for
    operators whose sons are not referenced elsewhere *)
Fixpoint del_clusteroperator (co : cox) : prog K unit :=
  match co with
  | CO _ _ _ C l =>
      (fix go l := match l with [] => Ret tt | s :: l' => del_clusteroperator s ;;; go l' end) l ;;;
      uninit_amatrix C
  end.

(** Library/clusteroperator.c:425-480 [basisproduct_clusteroperator] *)
Fixpoint basisproduct_clusteroperator (cb1 cb2 : cbx) (pr : cox) {struct pr} : prog K cox :=
  passert (cp_eqb (cb_t cb1) (co_t pr)) ;;;
  passert (cp_eqb (cb_t cb2) (co_t pr)) ;;;
  pr1 <- resize_clusteroperator pr (cb_k cb1) (cb_k cb2) ;;
  match pr with
  | CO _ _ _ _ ((_ :: _) as l) =>
      passert (length (cb_son cb1) =? length l) ;;;
      passert (length (cb_son cb2) =? length l) ;;;
      l' <- (fix go i l := match l with
             | [] => Ret []
             | p :: l' =>
                 s1 <- sget (Some (cb_son cb1)) i ;; s2 <- sget (Some (cb_son cb2)) i ;;
                 p1 <- basisproduct_clusteroperator s1 s2 p ;; r <- go (S i) l' ;; Ret (p1 :: r)
             end) 0 l ;;
      clear_amatrix (co_C pr1) ;;;
      for_ 0 (length l') (fun i =>
        s1 <- sget (Some (cb_son cb1)) i ;; s2 <- sget (Some (cb_son cb2)) i ;; p <- sget (Some l') i ;;
        X <- init_amatrix (cb_k s1) (cb_k cb2) ;;
        clear_amatrix X ;;;
        addmul_amatrix f1 false (co_C p) false (cb_E s2) X ;;;
        addmul_amatrix f1 true (cb_E s1) false X (co_C pr1) ;;;
        uninit_amatrix X) ;;;
      Ret (co_setsons pr1 l')
  | CO _ _ _ _ [] =>
      match cb_son cb1, cb_son cb2 with
      | [], [] =>
          clear_amatrix (co_C pr1) ;;;
          addmul_amatrix f1 true (cb_V cb1) false (cb_V cb2) (co_C pr1)
      | [], _ :: _ =>
          Xt <- init_amatrix (cb_kbranch cb2) (cb_k cb1) ;;
          compress_clusterbasis_amatrix cb2 (cb_V cb1) Xt ;;;
          X <- init_sub_amatrix Xt (cb_k cb2) 0 (cb_k cb1) 0 ;;
          copy_amatrix true X (co_C pr1) ;;;
          uninit_amatrix Xt
      | _ :: _, _ =>
          passert (length (cb_son cb2) =? 0) ;;;
          Xt <- init_amatrix (cb_kbranch cb1) (cb_k cb2) ;;
          compress_clusterbasis_amatrix cb1 (cb_V cb2) Xt ;;;
          X <- init_sub_amatrix Xt (cb_k cb1) 0 (cb_k cb2) 0 ;;
          copy_amatrix false X (co_C pr1) ;;;
          uninit_amatrix Xt
      end ;;;
      Ret pr1
  end.

(** ** Orthogonalisation *)
Context (O : qops K).

(** Library/clusterbasis.c:1578-1583, 1640-1645, 1735-1737, 1755-1757: copy the triangular factor into the
    operator. *)
Definition put_factor (Vhat : mat) (k kold : nat) (co : cox) : prog K cox :=
  co1 <- resize_clusteroperator co k kold ;;
  copy_upper_amatrix Vhat false (co_C co1) ;;;
  Ret co1.

(** Library/clusterbasis.c:1555-1583 and, literally the same for leaves, 1617-1645: factorise [Vhat],
    set the new rank, multiply the transfer matrix by the triangular factor. *)
Definition ortho_factor (cb : cbx) (Vhat : mat) (o : option cox) : prog K (vec * cbx * option cox) :=
  let kold := cb_k cb in
  let k := Nat.min (mrows Vhat) kold in
  tau0 <- init_avector k ;;
  tau <- qrdecomp_amatrix O Vhat tau0 ;;
  Eold <- init_amatrix kold (mcols (cb_E cb)) ;;
  copy_amatrix false (cb_E cb) Eold ;;;
  cb1 <- setrank_clusterbasis cb k ;;
  Vhat1 <- init_sub_amatrix Vhat k 0 kold 0 ;;
  triangulareval_amatrix false false false Vhat1 false Eold ;;;
  Eold1 <- init_sub_amatrix Eold k 0 (mcols Eold) 0 ;;
  copy_amatrix false Eold1 (cb_E cb1) ;;;
  uninit_amatrix Eold ;;;
  o1 <- match o with
        | Some co => co1 <- put_factor Vhat k kold co ;; Ret (Some co1)
        | None => Ret None
        end ;;
  Ret (tau, cb1, o1).

(** The new sons' operators *)
Definition somes {A} (l : list (option A)) : list A := flat_map (fun o => match o with Some c => [c] | None => [] end) l.

(** Library/clusterbasis.c:1539-1610: the part of [ortho_clusterbasis] for a cluster with sons after
    the recursive calls, which have led to the bases and operators [sl].  The sum of the sons' ranks
    is computed in line 1536. *)
Definition ortho_node (cb : cbx) (o : option cox) (sl : list (cbx * option cox)) : prog K (cbx * option cox) :=
  let l1 := map fst sl in
  let o1 := match o with Some co => Some (co_setsons co (somes (map snd sl))) | None => None end in
  let mm := fold_left (fun m s => m + cb_k s) l1 0 in
  Vhat <- init_amatrix mm (cb_k cb) ;;
  off <- sons l1 (fun i s off =>
    Vhat1 <- init_sub_amatrix Vhat (cb_k s) off (cb_k cb) 0 ;;
    copy_amatrix false (cb_E s) Vhat1 ;;;
    Ret (off + cb_k s)) 0 ;;
  passert (off =? mm) ;;;
  r <- ortho_factor (cb_setsons cb l1) Vhat o1 ;;
  let '(tau, cb1, o2) := r in
  Qhat <- init_amatrix mm (cb_k cb1) ;;
  qrexpand_amatrix Vhat tau Qhat ;;;
  off <- sons (cb_son cb1) (fun i s off =>
    Qhat1 <- init_sub_amatrix Qhat (cb_k s) off (cb_k cb1) 0 ;;
    passert (mrows (cb_E s) =? cb_k s) ;;;
    passert (mcols (cb_E s) =? cb_k cb1) ;;;
    copy_amatrix false Qhat1 (cb_E s) ;;;
    Ret (off + cb_k s)) 0 ;;
  passert (off =? mm) ;;;
  uninit_amatrix Qhat ;;;
  uninit_avector tau ;;;
  uninit_amatrix Vhat ;;;
  Ret (cb1, o2).

(** Library/clusterbasis.c:1514-1654 [ortho_clusterbasis]; [None] stands for a null pointer
    [old2new].  The lists of uniform matrices are not part of this model. *)
Fixpoint ortho_clusterbasis (cb : cbx) (o : option cox) : prog K (cbx * option cox) :=
  match cb with
  | CB t kold kt kb V E l Z =>
      match o with Some co => passert (length l =? length (co_son co)) | None => Ret tt end ;;;
      match l with
      | _ :: _ =>
          sl <- (fix go i l := match l with
                 | [] => Ret []
                 | s :: l' =>
                     oi <- match o with Some co => c <- sget (Some (co_son co)) i ;; Ret (Some c) | None => Ret None end ;;
                     r <- ortho_clusterbasis s oi ;;
                     rs <- go (S i) l' ;;
                     Ret (r :: rs)
                 end) 0 l ;;
          ortho_node cb o sl
      | [] =>
          Vhat <- init_amatrix (csz t) kold ;;
          copy_amatrix false V Vhat ;;;
          r <- ortho_factor cb Vhat o ;;
          let '(tau, cb1, o2) := r in
          qrexpand_amatrix Vhat tau (cb_V cb1) ;;;
          uninit_avector tau ;;;
          uninit_amatrix Vhat ;;;
          Ret (cb1, o2)
      end
  end.

(** Library/clusterbasis.c:1729-1740 and 1749-1760: factorise [Vhat] and store the triangular factor. *)
Definition weight_factor (Vhat : mat) (k0 : nat) (co : cox) : prog K cox :=
  let k := Nat.min (mrows Vhat) k0 in
  tau0 <- init_avector k ;;
  tau <- qrdecomp_amatrix O Vhat tau0 ;;
  co1 <- put_factor Vhat k k0 co ;;
  uninit_avector tau ;;;
  uninit_amatrix Vhat ;;;
  Ret co1.

(** Library/clusterbasis.c:1711-1740: the part of the next function for a cluster with sons after
    the recursive calls, which have led to the operators [cl] *)
Definition weight_node (cb : cbx) (co : cox) (cl : list cox) : prog K cox :=
  let mm := fold_left (fun m c => m + co_krow c) cl 0 in
  Vhat <- init_amatrix mm (cb_k cb) ;;
  clear_amatrix Vhat ;;;
  off <- sons (cb_son cb) (fun i s off =>
    c <- sget (Some cl) i ;;
    Vhat1 <- init_sub_amatrix Vhat (co_krow c) off (cb_k cb) 0 ;;
    passert (co_kcol c =? mrows (cb_E s)) ;;;
    addmul_amatrix f1 false (co_C c) false (cb_E s) Vhat1 ;;;
    Ret (off + co_krow c)) 0 ;;
  passert (off =? mm) ;;;
  weight_factor Vhat (cb_k cb) (co_setsons co cl).

(** Library/clusterbasis.c:1694-1764 [weight_clusterbasis_clusteroperator] *)
Fixpoint weight_clusterbasis_clusteroperator (cb : cbx) (co : cox) : prog K cox :=
  match cb with
  | CB t k0 _ _ V _ l _ =>
      passert (length l =? length (co_son co)) ;;;
      match l with
      | _ :: _ =>
          cl <- (fix go i l := match l with
                 | [] => Ret []
                 | s :: l' =>
                     c <- sget (Some (co_son co)) i ;;
                     c1 <- weight_clusterbasis_clusteroperator s c ;;
                     rs <- go (S i) l' ;;
                     Ret (c1 :: rs)
                 end) 0 l ;;
          weight_node cb co cl
      | [] =>
          Vhat <- init_amatrix (csz t) k0 ;;
          copy_amatrix false V Vhat ;;;
          weight_factor Vhat k0 co
      end
  end.
End Clusterop.
