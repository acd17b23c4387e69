(** * Construction, copies and projection of H2-matrices, Library/h2matrix.c

    The same simplifications as in H2matrix.v: no reference counters, no lists of uniform matrices,
    no null entries in arrays of sons; the list of sons is built before the node.  Pointers to
    clusters and to cluster bases are compared by comparing the positions of the clusters. *)
From Coq Require Import Arith Lia List Bool.
From Verif Require Import Fld Ord Prog Arr View Cluster Block Avector Amatrix Norm Rkmatrix Hmatrix Clusterbasis H2matrix.
Import ListNotations.

Section H2build.
Context {K : fops} {G : ofops}.
Local Notation h2x := (h2matrix G).
Local Notation cbx := (cbasis G).

(** ** Constructors and destructor *)

(** Library/h2matrix.c:46-58 [new_uniform_h2matrix] with [new_uniform], Library/uniform.c:16-32 *)
Definition new_uniform_h2matrix (rb cb : cbx) : prog K h2x :=
  Su <- init_amatrix (cb_k rb) (cb_k cb) ;;
  Ret (H2 rb cb (Some Su) None None 0 0 1).

(** Library/h2matrix.c:60-72 [new_full_h2matrix] *)
Definition new_full_h2matrix (rb cb : cbx) : prog K h2x :=
  f <- init_amatrix (csz (cb_t rb)) (csz (cb_t cb)) ;;
  Ret (H2 rb cb None (Some f) None 0 0 1).

(** Library/h2matrix.c:74-92 [new_super_h2matrix] with all sons *)
Definition new_super_h2matrix (rb cb : cbx) (rsons csons : nat) (l : list h2x) : h2x :=
  H2 rb cb None None (Some l) rsons csons 0.

(** Library/h2matrix.c:94-107 [new_zero_h2matrix] *)
Definition new_zero_h2matrix (rb cb : cbx) : h2x := H2 rb cb None None None 0 0 1.

(** Library/h2matrix.c:217-236 [update_h2matrix] *)
Definition update_h2matrix (h : h2x) : prog K h2x :=
  match h with
  | H2 rb cb u f son rsons csons _ =>
      desc <- match son with
              | None => Ret 1
              | Some l => sonloop rsons csons (fun k desc => s <- sget son k ;; Ret (desc + h2_desc s)) 1
              end ;;
      Ret (H2 rb cb u f son rsons csons desc)
  end.

(** Library/h2matrix.c:238-264 [del_h2matrix]; the sons have no other references, so [unref_h2matrix]
    deletes them.  [del_uniform], Library/uniform.c:34-45, releases the coupling matrix. *)
Fixpoint del_h2matrix (h : h2x) : prog K unit :=
  match h with
  | H2 _ _ u f son rsons csons _ =>
      match son with
      | Some l =>
          let rec := map del_h2matrix l in
          sonloop rsons csons (fun k _ => p <- sget (Some rec) k ;; p) tt
      | None => Ret tt
      end ;;;
      match f with Some F => uninit_amatrix F | None => Ret tt end ;;;
      match u with Some A => uninit_amatrix A | None => Ret tt end
  end.

(** ** Copies *)

(** The choice of the bases of a submatrix, Library/h2matrix.c:128-138 and 456-466: the basis itself
    if the cluster [t1] of the submatrix is the cluster [t] of the matrix, otherwise son [i]. *)
Definition sub_basis (cb : cbx) (t1 t : cptr G) (n i : nat) : prog K cbx :=
  if cp_eqb t1 t then Ret cb
  else passert (length (cb_son cb) =? n) ;;; sget (Some (cb_son cb)) i.

(** Library/h2matrix.c:109-162 [clonestructure_h2matrix] *)
Fixpoint clonestructure_h2matrix (h2 : h2x) (rb cb : cbx) : prog K h2x :=
  match h2 with
  | H2 rb0 cb0 u f son rsons csons _ =>
      h <- match son with
           | Some l =>
               let rec := map (fun s => (s, clonestructure_h2matrix s)) l in
               l' <- forS 0 csons (fun j l' => forS 0 rsons (fun i (l' : list h2x) =>
                       h21 <- sget (Some rec) (i + j * rsons) ;;
                       rb1 <- sub_basis rb (cb_t (h2_rb (fst h21))) (cb_t rb0) rsons i ;;
                       cb1 <- sub_basis cb (cb_t (h2_cb (fst h21))) (cb_t cb0) csons j ;;
                       h1 <- snd h21 rb1 cb1 ;;
                       Ret (l' ++ [h1])) l') [] ;;
               Ret (new_super_h2matrix rb cb rsons csons l')
           | None =>
           match u with
           | Some _ =>
               h <- new_uniform_h2matrix rb cb ;;
               match h2_u h with Some A => clear_amatrix A | None => Fail ENull end ;;; Ret h
           | None =>
           match f with
           | Some _ =>
               h <- new_full_h2matrix rb cb ;;
               match h2_f h with Some F => clear_amatrix F | None => Fail ENull end ;;; Ret h
           | None => Ret (new_zero_h2matrix rb cb)
           end end end ;;
      update_h2matrix h
  end.

(** The choice of the bases in [clone_h2matrix], Library/h2matrix.c:184-195 *)
Definition clone_basis (cb cb0 cb1 : cbx) (i : nat) : prog K cbx :=
  if cb_eqb cb0 cb1 then Ret cb else sget (Some (cb_son cb)) i.

(** Library/h2matrix.c:164-215 [clone_h2matrix] *)
Fixpoint clone_h2matrix (h2 : h2x) (rb cb : cbx) : prog K h2x :=
  match h2 with
  | H2 rb0 cb0 u f son rsons csons _ =>
      passert (cp_eqb (cb_t rb0) (cb_t rb)) ;;;
      passert (cp_eqb (cb_t cb0) (cb_t cb)) ;;;
      h <- match son with
           | Some l =>
               let rec := map (fun s => (s, clone_h2matrix s)) l in
               l' <- forS 0 csons (fun j l' =>
                       s0 <- sget (Some rec) (j * rsons) ;;
                       cb1 <- clone_basis cb cb0 (h2_cb (fst s0)) j ;;
                       forS 0 rsons (fun i (l' : list h2x) =>
                         si <- sget (Some rec) i ;;
                         rb1 <- clone_basis rb rb0 (h2_rb (fst si)) i ;;
                         s <- sget (Some rec) (i + j * rsons) ;;
                         tmp <- snd s rb1 cb1 ;;
                         Ret (l' ++ [tmp])) l') [] ;;
               Ret (new_super_h2matrix rb cb rsons csons l')
           | None =>
           match u with
           | Some A0 =>
               h <- new_uniform_h2matrix rb cb ;;
               match h2_u h with Some A => copy_amatrix false A0 A | None => Fail ENull end ;;; Ret h
           | None =>
           match f with
           | Some F0 =>
               h <- new_full_h2matrix rb cb ;;
               match h2_f h with Some F => copy_amatrix false F0 F | None => Fail ENull end ;;; Ret h
           | None => Ret (new_zero_h2matrix rb cb)
           end end end ;;
      update_h2matrix h
  end.

(** ** Changes in place: recursion to the sons if there are any, otherwise a function for leaves *)
Fixpoint each_h2 (leaf : h2x -> prog K unit) (h : h2x) : prog K unit :=
  match h with
  | H2 _ _ _ _ None _ _ _ => leaf h
  | H2 _ _ _ _ (Some l) rsons csons _ =>
      let rec := map (each_h2 leaf) l in
      sonloop rsons csons (fun k _ => p <- sget (Some rec) k ;; p) tt
  end.

(** Library/h2matrix.c:377-395 [clear_h2matrix] *)
Definition clear_h2matrix : h2x -> prog K unit := each_h2 (fun h =>
  match h2_u h with
  | Some A => clear_amatrix A
  | None => match h2_f h with Some F => clear_amatrix F | None => Ret tt end
  end).

(** Library/h2matrix.c:397-413 [scale_h2matrix] with [scale_uniform], Library/uniform.c:192-196 *)
Definition scale_h2matrix (alpha : K) : h2x -> prog K unit := each_h2 (fun h =>
  match h2_u h with
  | Some A => scale_amatrix alpha A
  | None => match h2_f h with Some F => scale_amatrix alpha F | None => Ret tt end
  end).

(** ** Conversions between block trees and H2-matrices *)

(** Library/h2matrix.c:437-483 [build_from_block_h2matrix] *)
Fixpoint build_from_block_h2matrix (b : block G) (rb cb : cbx) : prog K h2x :=
  match b with
  | Blk rc cc a rsons csons son _ =>
      h <- match son with
           | [] => if a then new_uniform_h2matrix rb cb else new_full_h2matrix rb cb
           | _ :: _ =>
               let rec := map (fun o => match o with
                                        | Some s => Some (b_rc s, b_cc s, build_from_block_h2matrix s)
                                        | None => None end) son in
               l' <- forS 0 csons (fun j l' => forS 0 rsons (fun i (l' : list h2x) =>
                       o <- sget (Some rec) (i + j * rsons) ;;
                       match o with
                       | None => Fail ENull
                       | Some (rc1, cc1, bld) =>
                           rb1 <- sub_basis rb rc1 rc rsons i ;;
                           cb1 <- sub_basis cb cc1 cc csons j ;;
                           h1 <- bld rb1 cb1 ;;
                           Ret (l' ++ [h1])
                       end) l') [] ;;
               Ret (new_super_h2matrix rb cb rsons csons l')
           end ;;
      update_h2matrix h
  end.

(** Library/h2matrix.c:489-521 [build_from_h2matrix_block] *)
Fixpoint build_from_h2matrix_block (h : h2x) : res (block G) :=
  match h with
  | H2 rb cb u f son rsons csons _ =>
      let* b := match son with
                | Some l =>
                    let rec := map build_from_h2matrix_block l in
                    rfor 0 csons (fun j b => rfor 0 rsons (fun i b =>
                      match nth_error rec (i + j * rsons) with
                      | Some p => let* s := p in set_son b (i + j * rsons) s
                      | None => Err EBounds
                      end) b) (new_block (cb_t rb) (cb_t cb) false rsons csons)
                | None =>
                    match u with
                    | Some _ => Ok (new_block (cb_t rb) (cb_t cb) true 0 0)
                    | None => match f with Some _ => Ok (new_block (cb_t rb) (cb_t cb) false 0 0) | None => Err EAssert end
                    end
                end in
      update_block b
  end.

(** ** Statistics *)

(** Sizes in bytes of the structures (parameters of the target machine). *)
Record h2sizes := H2sizes { sz_uniform : nat; sz_h2matrix : nat; sz_clusterbasis : nat; sz_pclusterbasis : nat }.
Section Sizes.
Variables (Z : sizes) (Z2 : h2sizes).
(** Library/uniform.c:143-152 [getsize_uniform] *)
Definition h2size_u (h : h2x) : nat := match h2_u h with Some A => sz_uniform Z2 + getsize_heap_amatrix Z A | None => 0 end.
Definition h2size_f (h : h2x) : nat := match h2_f h with Some F => getsize_amatrix Z F | None => 0 end.
(** Library/h2matrix.c:297-318 [getsize_h2matrix], 333-351 [getnearsize_h2matrix], 353-371
    [getfarsize_h2matrix]: [own] counts the node itself. *)
Fixpoint h2sizeloop (own : h2x -> nat) (h : h2x) : prog K nat :=
  match h with
  | H2 _ _ _ _ son rsons csons _ =>
      let rec := match son with Some l => Some (map (h2sizeloop own) l) | None => None end in
      sonloop rsons csons (fun k sz => p <- sget rec k ;; d <- p ;; Ret (sz + d)) (own h)
  end.
Definition getsize_h2matrix : h2x -> prog K nat := h2sizeloop (fun h => sz_h2matrix Z2 + h2size_u h + h2size_f h).
Definition getnearsize_h2matrix : h2x -> prog K nat := h2sizeloop h2size_f.
Definition getfarsize_h2matrix : h2x -> prog K nat := h2sizeloop h2size_u.

(** Library/clusterbasis.c:345-363 [getsize_clusterbasis] *)
Fixpoint getsize_clusterbasis (cb : cbx) : nat :=
  match cb with
  | CB _ _ _ _ V E l _ =>
      let sz := sz_clusterbasis Z2 + getsize_heap_amatrix Z V + getsize_heap_amatrix Z E in
      match l with
      | [] => sz
      | _ :: _ => fold_left Nat.add (map getsize_clusterbasis l) (sz + sz_pclusterbasis Z2 * length l)
      end
  end.

(** Library/h2matrix.c:320-331 [gettotalsize_h2matrix]; [same] tells whether both bases are the same
    object, i.e. [h2->rb == h2->cb]. *)
Definition gettotalsize_h2matrix (same : bool) (h : h2x) : prog K nat :=
  sz <- getsize_h2matrix h ;;
  Ret (if same then sz + getsize_clusterbasis (h2_rb h)
       else sz + getsize_clusterbasis (h2_rb h) + getsize_clusterbasis (h2_cb h)).
End Sizes.

(** ** Projection *)

(** Library/h2matrix.c:1876-1878, 1908-1916: [B] receives the entries of [a] for the rows and columns
    with the indices of two clusters. *)
Definition gather_entries (ridx cidx : arr nat) (roff coff rows cols : nat) (a B : mat) : prog K unit :=
  for_ 0 cols (fun j => for_ 0 rows (fun i =>
    ip <- lift (aget ridx (roff + i)) ;;
    jp <- lift (aget cidx (coff + j)) ;;
    v <- mload a ip jp ;;
    mstore B i j v)).

(** Library/h2matrix.c:1817-1896 [collectdense_h2matrix].  The recursion with a leaf [rb] (lines
    1857-1894) is a separate function in the model. *)
Fixpoint collectdense_leaf (ridx cidx : arr nat) (a : mat) (rb cb : cbx) (s : mat) : prog K unit :=
  match cb with
  | CB ct ck _ _ cV _ cl _ =>
      passert (mrows s =? cb_k rb) ;;;
      passert (mcols s =? ck) ;;;
      clear_amatrix s ;;;
      match cl with
      | _ :: _ =>
          let rec := map (fun c => (c, collectdense_leaf ridx cidx a rb c)) cl in
          sons rec (fun j c _ =>
            s1 <- init_amatrix (cb_k rb) (cb_k (fst c)) ;;
            snd c s1 ;;;
            addmul_amatrix f1 false s1 false (cb_E (fst c)) s ;;;
            uninit_amatrix s1) tt
      | [] =>
          s1 <- init_amatrix (cb_k rb) (csz ct) ;;
          clear_amatrix s1 ;;;
          s2 <- init_amatrix (cb_size rb) (csz ct) ;;
          gather_entries ridx cidx (cb_off rb) (c_off (cp_c ct)) (cb_size rb) (csz ct) a s2 ;;;
          addmul_amatrix f1 true (cb_V rb) false s2 s1 ;;;
          addmul_amatrix f1 false s1 false cV s ;;;
          uninit_amatrix s2 ;;;
          uninit_amatrix s1
      end
  end.
Fixpoint collectdense_h2matrix (ridx cidx : arr nat) (a : mat) (rb cb : cbx) (s : mat) : prog K unit :=
  match rb with
  | CB _ rk _ _ _ _ rl _ =>
      match rl with
      | [] => collectdense_leaf ridx cidx a rb cb s
      | _ :: _ =>
          let rec := map (fun r => (r, collectdense_h2matrix ridx cidx a r)) rl in
          passert (mrows s =? rk) ;;;
          passert (mcols s =? cb_k cb) ;;;
          clear_amatrix s ;;;
          match cb_son cb with
          | (_ :: _) as cl =>
              sons cl (fun j c _ =>
                s1 <- init_amatrix rk (cb_k c) ;;
                clear_amatrix s1 ;;;
                sons rec (fun i r _ =>
                  s2 <- init_amatrix (cb_k (fst r)) (cb_k c) ;;
                  snd r c s2 ;;;
                  addmul_amatrix f1 true (cb_E (fst r)) false s2 s1 ;;;
                  uninit_amatrix s2) tt ;;;
                addmul_amatrix f1 false s1 false (cb_E c) s ;;;
                uninit_amatrix s1) tt
          | [] =>
              sons rec (fun i r _ =>
                s2 <- init_amatrix (cb_k (fst r)) (cb_k cb) ;;
                snd r cb s2 ;;;
                addmul_amatrix f1 true (cb_E (fst r)) false s2 s ;;;
                uninit_amatrix s2) tt
          end
      end
  end.

(** Library/h2matrix.c:1898-1923 [project_amatrix_h2matrix] *)
Definition project_amatrix_h2matrix (ridx cidx : arr nat) (a : mat) : h2x -> prog K unit := each_h2 (fun h =>
  match h2_f h with
  | Some F =>
      passert (mrows F =? cb_size (h2_rb h)) ;;;
      passert (mcols F =? cb_size (h2_cb h)) ;;;
      gather_entries ridx cidx (cb_off (h2_rb h)) (cb_off (h2_cb h)) (cb_size (h2_rb h)) (cb_size (h2_cb h)) a F
  | None =>
      match h2_u h with
      | Some A => collectdense_h2matrix ridx cidx a (h2_rb h) (h2_cb h) A
      | None => Fail ENull
      end
  end).

(** [A->rows = k], Library/h2matrix.c:1948, 1951 *)
Definition set_rows (A : mat) (k : nat) : mat := Mat (mblk A) (moff A) (mld A) k (mcols A) (mown A).
(** Library/h2matrix.c:1925-1959 [project_hmatrix_h2matrix] *)
Fixpoint project_hmatrix_h2matrix (h2 : h2x) (h : hmatrix G) : prog K unit :=
  match h2 with
  | H2 rb cb u f son rsons csons _ =>
      match son with
      | Some l =>
          let rec := map project_hmatrix_h2matrix l in
          passert (match hm_son h with Some _ => true | None => false end) ;;;
          for_ 0 (rsons * csons) (fun i =>
            p <- sget (Some rec) i ;;
            s <- sget (hm_son h) i ;;
            p s)
      | None =>
      match f with
      | Some F => match hm_f h with Some F0 => copy_amatrix false F0 F | None => Fail EAssert end
      | None =>
          match u, hm_r h with
          | Some Su, Some r =>
              A <- init_amatrix (cb_kbranch rb) (rk_k r) ;;
              compress_clusterbasis_amatrix rb (rk_A r) A ;;;
              B <- init_amatrix (cb_kbranch cb) (rk_k r) ;;
              compress_clusterbasis_amatrix cb (rk_B r) B ;;;
              clear_amatrix Su ;;;
              addmul_amatrix f1 false (set_rows A (cb_k rb)) true (set_rows B (cb_k cb)) Su ;;;
              uninit_amatrix B ;;;
              uninit_amatrix A
          | _, _ => Fail EAssert
          end
      end end
  end.
End H2build.
