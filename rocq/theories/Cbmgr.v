(** * Construction, copies and weights of cluster bases, Library/clusterbasis.c

    Sons of a basis under construction that are still null are represented by an empty list; the
    list is filled in one step after the loop that creates the sons.  Reference counters are not
    part of this model, so [ref_clusterbasis] of a null entry is just the assignment. *)
From Coq Require Import Arith Lia List Bool.
From Verif Require Import Fld Ord Prog Arr View Cluster Block Avector Amatrix Hmatrix Clusterbasis.
Import ListNotations.

Definition cb_setsons {G : ofops} (cb : cbasis G) (l : list (cbasis G)) : cbasis G :=
  match cb with CB t k kt kb V E _ Z => CB t k kt kb V E l Z end.
Definition cb_setE {G : ofops} (cb : cbasis G) (E' : mat) : cbasis G :=
  match cb with CB t k kt kb V _ l Z => CB t k kt kb V E' l Z end.

(** A loop that creates one object per entry of a list *)
Definition pmap {K : fops} {A B} (f : A -> prog K B) : list A -> prog K (list B) :=
  fix go l := match l with
              | [] => Ret []
              | a :: l' => b <- f a ;; bs <- go l' ;; Ret (b :: bs)
              end.

Section Cbmgr.
Context {K : fops} {G : ofops}.
Local Notation cbx := (cbasis G).

(** Library/clusterbasis.c:68-79, 135-145 [init_leaf_clusterbasis], [new_leaf_clusterbasis] with
    [init_raw_clusterbasis] (lines 24-47) *)
Definition new_leaf_clusterbasis (t : cptr G) : prog K cbx :=
  V <- init_amatrix 0 0 ;;
  E <- init_amatrix 0 0 ;;
  Ret (CB t 0 0 0 V E [] None).
(** Library/clusterbasis.c:49-66, 123-133 [init_clusterbasis], [new_clusterbasis]: the array of sons
    is filled later *)
Definition new_clusterbasis (t : cptr G) : prog K cbx := new_leaf_clusterbasis t.
(** Library/clusterbasis.c:81-95 [init_sub_clusterbasis] *)
Definition init_sub_clusterbasis (src : cbx) (t : cptr G) (off : nat) : prog K cbx :=
  V <- init_sub_amatrix (cb_V src) (csz t) off (cb_k src) 0 ;;
  E <- init_amatrix 0 0 ;;
  Ret (CB t (cb_k src) (cb_k src) (cb_k src) V E [] None).

(** Library/clusterbasis.c:186-208 [update_clusterbasis] *)
Definition update_clusterbasis (cb : cbx) : cbx :=
  match cb with
  | CB t k _ _ V E l Z =>
      let '(stree, sbranch) :=
        match l with
        | [] => (0 + csz t, csz t)
        | _ => fold_left (fun '(st, sb) s => (st + cb_ktree s, if sb <? cb_kbranch s then cb_kbranch s else sb)) l (0, 0)
        end in
      CB t k (stree + k) (sbranch + k) V E l Z
  end.
(** Library/clusterbasis.c:210-219 [update_tree_clusterbasis] *)
Fixpoint update_tree_clusterbasis (cb : cbx) : cbx :=
  match cb with
  | CB t k kt kb V E l Z => update_clusterbasis (CB t k kt kb V E (map update_tree_clusterbasis l) Z)
  end.

(** Library/clusterbasis.c:221-225, 227-244 [resize_clusterbasis], [setrank_clusterbasis] *)
Definition setrank_clusterbasis (cb : cbx) (k : nat) : prog K cbx :=
  match cb with
  | CB t _ kt kb V E l Z =>
      VL <- match l with
            | _ :: _ => l' <- pmap (fun s => E1 <- resize_amatrix (cb_E s) (cb_k s) k ;; Ret (cb_setE s E1)) l ;; Ret (V, l')
            | [] => V1 <- resize_amatrix V (csz t) k ;; Ret (V1, [])
            end ;;
      E1 <- resize_amatrix E k (mcols E) ;;
      Ret (update_clusterbasis (CB t k kt kb (fst VL) E1 (snd VL) Z))
  end.
Definition resize_clusterbasis := setrank_clusterbasis.

(** Library/clusterbasis.c:250-268 [build_from_cluster_clusterbasis] *)
Fixpoint build_from_cluster (path : list nat) (c : cluster G) {struct c} : prog K cbx :=
  cb <- new_clusterbasis (CP path c) ;;
  l' <- (match c with Cl _ _ l _ _ _ _ _ =>
           (fix go i l := match l with
            | [] => Ret []
            | s :: l' => s1 <- build_from_cluster (i :: path) s ;; r <- go (S i) l' ;; Ret (s1 :: r)
            end) 0 l
         end) ;;
  resize_clusterbasis (cb_setsons cb l') 0.
Definition build_from_cluster_clusterbasis (t : cptr G) : prog K cbx := build_from_cluster (cp_path t) (cp_c t).

(** Library/clusterbasis.c:274-308 [clone_clusterbasis].  After the loop [i] is the number of sons. *)
Fixpoint clone_clusterbasis (cb : cbx) : prog K cbx :=
  match cb with
  | CB t k _ _ V _ l Z =>
      match l with
      | _ :: _ =>
          c0 <- new_clusterbasis t ;;
          passert (cp_sons t =? length l) ;;;
          l' <- pmap clone_clusterbasis l ;;
          c1 <- resize_clusterbasis (cb_setsons c0 l') k ;;
          for_ 0 (length l) (fun i => s <- sget (Some l) i ;; s' <- sget (Some (cb_son c1)) i ;; copy_amatrix false (cb_E s) (cb_E s')) ;;;
          match Z with
          | Some _ =>
              s <- sget (Some l) (length l) ;; s' <- sget (Some (cb_son c1)) (length l) ;;
              match cb_Z s, cb_Z s' with Some A, Some B => copy_amatrix false A B | _, _ => Fail ENull end
          | None => Ret tt
          end ;;;
          Ret c1
      | [] =>
          c0 <- new_leaf_clusterbasis t ;;
          c1 <- resize_clusterbasis c0 k ;;
          copy_amatrix false V (cb_V c1) ;;;
          Ret c1
      end
  end.

(** Library/clusterbasis.c:310-333 [clonestructure_clusterbasis] *)
Fixpoint clonestructure_clusterbasis (cb : cbx) : prog K cbx :=
  match cb with
  | CB t _ _ _ _ _ l _ =>
      match l with
      | _ :: _ =>
          c0 <- new_clusterbasis t ;;
          passert (cp_sons t =? length l) ;;;
          l' <- pmap clonestructure_clusterbasis l ;;
          Ret (update_clusterbasis (cb_setsons c0 l'))
      | [] => new_leaf_clusterbasis t
      end
  end.

(** Library/clusterbasis.c:369-383 [clear_weight_clusterbasis] *)
Fixpoint clear_weight_clusterbasis (cb : cbx) : prog K cbx :=
  match cb with
  | CB t k kt kb V E l Z =>
      l' <- pmap clear_weight_clusterbasis l ;;
      match Z with Some A => uninit_amatrix A | None => Ret tt end ;;;
      Ret (CB t k kt kb V E l' None)
  end.

(** Library/clusterbasis.c:97-121, 147-153 [uninit_clusterbasis], [del_clusterbasis]; the sons have
    no other references, so [unref_clusterbasis] deletes them *)
Fixpoint del_clusterbasis (cb : cbx) : prog K unit :=
  match cb with
  | CB t k kt kb V E l Z =>
      (fix go l := match l with [] => Ret tt | s :: l' => del_clusterbasis s ;;; go l' end) l ;;;
      uninit_amatrix V ;;;
      uninit_amatrix E
  end.
End Cbmgr.
