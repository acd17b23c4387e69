(** * Hierarchical matrices, Library/hmatrix.c

    An H-matrix is a value of type [hmatrix] whose leaves refer to matrices in memory.  Functions
    that change an H-matrix return the changed value.  Simplifications: the reference counters are
    not part of the model (sons are not shared), an array of sons has no null entries (they only
    occur while a matrix is being built), and [uint] arithmetic does not wrap around.  Row and
    column clusters are [cptr] references; roots of different cluster trees have different paths. *)
From Coq Require Import Arith Lia List Bool.
From Verif Require Import Fld Ord Prog Arr View Cluster Block Avector Amatrix Norm Rkmatrix.
Import ListNotations.

(** struct _hmatrix, Library/hmatrix.h *)
Inductive hmatrix (G : ofops) :=
| HM (rc cc : cptr G) (r : option rkm) (f : option mat) (son : option (list (hmatrix G))) (rsons csons : nat) (desc : nat).
Arguments HM {G}.
Definition hm_rc {G : ofops} (h : hmatrix G) := match h with HM x _ _ _ _ _ _ _ => x end.
Definition hm_cc {G : ofops} (h : hmatrix G) := match h with HM _ x _ _ _ _ _ _ => x end.
Definition hm_r {G : ofops} (h : hmatrix G) := match h with HM _ _ x _ _ _ _ _ => x end.
Definition hm_f {G : ofops} (h : hmatrix G) := match h with HM _ _ _ x _ _ _ _ => x end.
Definition hm_son {G : ofops} (h : hmatrix G) := match h with HM _ _ _ _ x _ _ _ => x end.
Definition hm_rsons {G : ofops} (h : hmatrix G) := match h with HM _ _ _ _ _ x _ _ => x end.
Definition hm_csons {G : ofops} (h : hmatrix G) := match h with HM _ _ _ _ _ _ x _ => x end.
Definition hm_desc {G : ofops} (h : hmatrix G) := match h with HM _ _ _ _ _ _ _ x => x end.
(** [t->size] *)
Definition csz {G : ofops} (p : cptr G) : nat := c_size (cp_c p).
(** [hm->rc->size] and [hm->cc->size] *)
Definition hrows {G : ofops} (h : hmatrix G) : nat := csz (hm_rc h).
Definition hcols {G : ofops} (h : hmatrix G) : nat := csz (hm_cc h).

(** [son[k]] for an array that may be null *)
Definition sget {K : Type} {A} (son : option (list A)) (k : nat) : prog K A :=
  match son with
  | None => Fail ENull
  | Some l => match nth_error l k with Some a => Ret a | None => Fail EBounds end
  end.

Section Hmatrix.
Context {K : fops} {G : ofops}.
Local Notation hmx := (hmatrix G).

(** The loop [for (j = 0; j < csons; j++) for (i = 0; i < rsons; i++)] with the position
    [i + j * rsons] in the array of sons and a loop-carried value. *)
Definition sonloop {S} (rsons csons : nat) (body : nat -> S -> prog K S) (s : S) : prog K S :=
  forS 0 csons (fun j s => forS 0 rsons (fun i s => body (i + j * rsons) s) s) s.

(** ** Constructors *)

(** Library/hmatrix.c:20-37 [init_hmatrix] (and new_hmatrix, Library/hmatrix.c:63-73) *)
Definition new_hmatrix (rc cc : cptr G) : hmx := HM rc cc None None None 0 0 0.

(** Library/hmatrix.c:74-86 [new_rk_hmatrix] *)
Definition new_rk_hmatrix (rc cc : cptr G) (k : nat) : prog K hmx :=
  r <- init_rkmatrix (csz rc) (csz cc) k ;;
  Ret (HM rc cc (Some r) None None 0 0 1).

(** Library/hmatrix.c:88-100 [new_full_hmatrix] *)
Definition new_full_hmatrix (rc cc : cptr G) : prog K hmx :=
  f <- init_amatrix (csz rc) (csz cc) ;;
  Ret (HM rc cc None (Some f) None 0 0 1).

(** Library/hmatrix.c:102-119 [new_super_hmatrix] with all sons: the model builds the list of
    sons first. *)
Definition new_super_hmatrix (rc cc : cptr G) (rsons csons : nat) (l : list hmx) : hmx :=
  HM rc cc None None (Some l) rsons csons 0.

(** Library/hmatrix.c:191-210 [update_hmatrix] *)
Definition update_hmatrix (h : hmx) : prog K hmx :=
  match h with
  | HM rc cc r f son rsons csons _ =>
      desc <- match son with
              | None => Ret 1
              | Some l => sonloop rsons csons (fun k desc => s <- sget son k ;; Ret (desc + hm_desc s)) 1
              end ;;
      Ret (HM rc cc r f son rsons csons desc)
  end.

(** ** Traversals

    The functions [clonestructure], [clone], [clear], [identity], [random], [scale] and [copy] have
    the same shape: recursion to the sons column by column if there are any, otherwise a function
    for leaves.  [leaf] returns the new leaf. *)
Fixpoint each_leaf (leaf : hmx -> prog K hmx) (h : hmx) : prog K hmx :=
  match h with
  | HM rc cc r f None rsons csons desc => leaf h
  | HM rc cc r f (Some l) rsons csons desc =>
      let rec := map (each_leaf leaf) l in
      l' <- sonloop rsons csons (fun k (l' : list hmx) =>
              p <- sget (Some rec) k ;; s <- p ;; Ret (l' ++ [s])) [] ;;
      Ret (HM rc cc r f (Some l') rsons csons desc)
  end.
(** The same followed by [update_hmatrix] in each node. *)
Fixpoint each_leaf_upd (leaf : hmx -> prog K hmx) (h : hmx) : prog K hmx :=
  match h with
  | HM rc cc r f None rsons csons desc => h' <- leaf h ;; update_hmatrix h'
  | HM rc cc r f (Some l) rsons csons desc =>
      let rec := map (each_leaf_upd leaf) l in
      l' <- sonloop rsons csons (fun k (l' : list hmx) =>
              p <- sget (Some rec) k ;; s <- p ;; Ret (l' ++ [s])) [] ;;
      update_hmatrix (new_super_hmatrix rc cc rsons csons l')
  end.

(** [assert(f)] before a matrix [f] is used *)
Definition have_f (h : hmx) : prog K mat := match hm_f h with Some f => Ret f | None => Fail EAssert end.
(** [h] with changed leaf matrices *)
Definition set_r (h : hmx) (r : rkm) : hmx :=
  match h with HM rc cc _ f son rsons csons desc => HM rc cc (Some r) f son rsons csons desc end.

(** Library/hmatrix.c:121-152 [clonestructure_hmatrix] *)
Definition clonestructure_hmatrix : hmx -> prog K hmx := each_leaf_upd (fun h =>
  match hm_r h with
  | Some r => new_rk_hmatrix (hm_rc h) (hm_cc h) (rk_k r)
  | None => have_f h ;;; new_full_hmatrix (hm_rc h) (hm_cc h)
  end).

(** Library/hmatrix.c:154-189 [clone_hmatrix] *)
Definition clone_hmatrix : hmx -> prog K hmx := each_leaf_upd (fun h =>
  match hm_r h with
  | Some r =>
      h' <- new_rk_hmatrix (hm_rc h) (hm_cc h) (rk_k r) ;;
      match hm_r h' with
      | Some r' => copy_amatrix false (rk_A r) (rk_A r') ;;; copy_amatrix false (rk_B r) (rk_B r') ;;; Ret h'
      | None => Fail ENull
      end
  | None =>
      f <- have_f h ;;
      h' <- new_full_hmatrix (hm_rc h) (hm_cc h) ;;
      match hm_f h' with
      | Some f' => copy_amatrix false f f' ;;; Ret h'
      | None => Fail ENull
      end
  end).

(** Library/hmatrix.c:318-341 [clear_hmatrix] *)
Definition clear_hmatrix : hmx -> prog K hmx := each_leaf (fun h =>
  match hm_r h with
  | Some r => r' <- setrank_rkmatrix r 0 ;; Ret (set_r h r')
  | None => f <- have_f h ;; clear_amatrix f ;;; Ret h
  end).

(** Library/hmatrix.c:402-430 [identity_hmatrix] *)
Definition identity_hmatrix : hmx -> prog K hmx := each_leaf (fun h =>
  match hm_r h with
  | Some r => r' <- setrank_rkmatrix r 0 ;; Ret (set_r h r')
  | None => f <- have_f h ;;
            (if cp_eqb (hm_rc h) (hm_cc h) then identity_amatrix f else clear_amatrix f) ;;; Ret h
  end).

(** Library/hmatrix.c:458-474 [scale_hmatrix] *)
Definition scale_hmatrix (alpha : K) : hmx -> prog K hmx := each_leaf (fun h =>
  match hm_r h with
  | Some r => scale_rkmatrix alpha r ;;; Ret h
  | None => match hm_f h with Some f => scale_amatrix alpha f ;;; Ret h | None => Ret h end
  end).

(** Library/hmatrix.c:372-400 [copy_hmatrix]: the target [trg] has its own tree. *)
Fixpoint copy_hmatrix (src trg : hmx) : prog K hmx :=
  match src with
  | HM rc cc r f son rsons csons _ =>
      passert (rsons =? hm_rsons trg) ;;;
      passert (csons =? hm_csons trg) ;;;
      passert (cp_eqb rc (hm_rc trg)) ;;;
      passert (cp_eqb cc (hm_cc trg)) ;;;
      match son with
      | Some l =>
          let rec := map copy_hmatrix l in
          l' <- sonloop rsons csons (fun k (l' : list hmx) =>
                  p <- sget (Some rec) k ;; t <- sget (hm_son trg) k ;; s <- p t ;; Ret (l' ++ [s])) [] ;;
          match trg with
          | HM trc tcc tr tf _ trs tcs td => Ret (HM trc tcc tr tf (Some l') trs tcs td)
          end
      | None =>
          match r with
          | Some r =>
              match hm_r trg with
              | None => Fail ENull
              | Some rt =>
                  rt <- resize_rkmatrix rt (csz rc) (csz cc) (rk_k r) ;;
                  copy_amatrix false (rk_A r) (rk_A rt) ;;;
                  copy_amatrix false (rk_B r) (rk_B rt) ;;;
                  Ret (set_r trg rt)
              end
          | None =>
              match f with
              | Some f => match hm_f trg with None => Fail ENull | Some ft => copy_amatrix false f ft ;;; Ret trg end
              | None => Ret trg
              end
          end
      end
  end.

(** Library/hmatrix.c:343-370 [clear_upper_hmatrix] *)
Fixpoint clear_upper_hmatrix (strict : bool) (h : hmx) : prog K hmx :=
  match h with
  | HM rc cc r f (Some l) rsons csons desc =>
      let rec := map (fun s => (clear_hmatrix s, clear_upper_hmatrix strict s, s)) l in
      l' <- forS 0 csons (fun j (l' : list hmx) =>
              l' <- forS 0 (Nat.min j rsons) (fun i (l' : list hmx) =>
                      p <- sget (Some rec) (i + j * rsons) ;; s <- fst (fst p) ;; Ret (lupd l' (i + j * rsons) s)) l' ;;
              if j <? rsons then
                p <- sget (Some rec) (j + j * rsons) ;; s <- snd (fst p) ;; Ret (lupd l' (j + j * rsons) s)
              else Ret l') l ;;
      Ret (HM rc cc r f (Some l') rsons csons desc)
  | HM rc cc r f None rsons csons desc =>
      match r with
      | Some r => r' <- setrank_rkmatrix r 0 ;; Ret (set_r h r')
      | None => f <- have_f h ;; passert (cp_eqb rc cc) ;;; clear_upper_amatrix f strict ;;; Ret h
      end
  end.

(** ** Conversions between block trees and H-matrices *)

(** Library/hmatrix.c:480-514 [build_from_block_hmatrix] *)
Fixpoint build_from_block_hmatrix (k : nat) (b : block G) : prog K hmx :=
  match b with
  | Blk rc cc a rsons csons son _ =>
      h <- match son with
           | [] => if a then new_rk_hmatrix rc cc k else new_full_hmatrix rc cc
           | _ :: _ =>
               let rec := map (fun o => match o with Some s => build_from_block_hmatrix k s | None => Fail ENull end) son in
               l <- sonloop rsons csons (fun p (l : list hmx) => q <- sget (Some rec) p ;; s <- q ;; Ret (l ++ [s])) [] ;;
               Ret (new_super_hmatrix rc cc rsons csons l)
           end ;;
      update_hmatrix h
  end.

(** Library/hmatrix.c:520-551 [build_from_hmatrix_block] *)
Fixpoint build_from_hmatrix_block (h : hmx) : res (block G) :=
  match h with
  | HM rc cc r f son rsons csons _ =>
      let* b := match son with
                | Some l =>
                    let rec := map build_from_hmatrix_block l in
                    rfor 0 csons (fun j b => rfor 0 rsons (fun i b =>
                      match nth_error rec (i + j * rsons) with
                      | Some p => let* s := p in set_son b (i + j * rsons) s
                      | None => Err EBounds
                      end) b) (new_block rc cc false rsons csons)
                | None =>
                    match r with
                    | Some _ => Ok (new_block rc cc true 0 0)
                    | None => match f with Some _ => Ok (new_block rc cc false 0 0) | None => Err EAssert end
                    end
                end in
      update_block b
  end.

(** ** Statistics *)

(** Sizes in bytes of the structures (parameters of the target machine). *)
Record sizes := Sizes { sz_field : nat; sz_amatrix : nat; sz_rkmatrix : nat; sz_hmatrix : nat }.
Variable Z : sizes.

(** Library/amatrix.c:301-311 [getsize_heap_amatrix] *)
Definition getsize_heap_amatrix (a : mat) : nat := if mown a then sz_field Z * mrows a * mcols a else 0.
(** Library/amatrix.c:289-299 [getsize_amatrix] *)
Definition getsize_amatrix (a : mat) : nat := sz_amatrix Z + getsize_heap_amatrix a.
(** Library/rkmatrix.c:97-107 [getsize_rkmatrix] *)
Definition getsize_rkmatrix (r : rkm) : nat := sz_rkmatrix Z + getsize_heap_amatrix (rk_A r) + getsize_heap_amatrix (rk_B r).

(** Library/hmatrix.c:251-272 [getsize_hmatrix], 277-296 [getnearsize_hmatrix] and 298-317
    [getfarsize_hmatrix] have the same shape: [own] counts the node itself. *)
Fixpoint sizeloop (own : hmx -> nat) (h : hmx) : prog K nat :=
  match h with
  | HM _ _ _ _ son rsons csons _ =>
      let rec := match son with Some l => Some (map (sizeloop own) l) | None => None end in
      sonloop rsons csons (fun k sz => p <- sget rec k ;; d <- p ;; Ret (sz + d)) (own h)
  end.
Definition size_r (h : hmx) : nat := match hm_r h with Some r => getsize_rkmatrix r | None => 0 end.
Definition size_f (h : hmx) : nat := match hm_f h with Some f => getsize_amatrix f | None => 0 end.
Definition getsize_hmatrix : hmx -> prog K nat := sizeloop (fun h => sz_hmatrix Z + size_r h + size_f h).
Definition getnearsize_hmatrix : hmx -> prog K nat := sizeloop size_f.
Definition getfarsize_hmatrix : hmx -> prog K nat := sizeloop size_r.

(** ** Matrix-vector multiplication *)

(** Library/hmatrix.c:567-612 [fastaddeval_hmatrix_avector] *)
Fixpoint fastaddeval_hmatrix_avector (alpha : K) (h : hmx) (x y : vec) : prog K unit :=
  match h with
  | HM rc cc r f son rsons csons _ =>
      passert (vdim x =? csz cc) ;;;
      passert (vdim y =? csz rc) ;;;
      match r with
      | Some r => addeval_rkmatrix_avector alpha r x y
      | None =>
      match f with
      | Some f => mvm_amatrix_avector alpha false f x y
      | None =>
          let rec := match son with Some l => Some (map (fun s => (s, fastaddeval_hmatrix_avector alpha s)) l) | None => None end in
          xoff <- forS 0 csons (fun j xoff =>
            sj <- sget rec (j * rsons) ;;
            x1 <- init_sub_avector x (hcols (fst sj)) xoff ;;
            yoff <- forS 0 rsons (fun i yoff =>
              si <- sget rec i ;;
              y1 <- init_sub_avector y (hrows (fst si)) yoff ;;
              s <- sget rec (i + j * rsons) ;;
              snd s x1 y1 ;;;
              uninit_avector y1 ;;;
              Ret (yoff + hrows (fst si))) 0 ;;
            passert (yoff =? csz rc) ;;;
            uninit_avector x1 ;;;
            Ret (xoff + hcols (fst sj))) 0 ;;
          passert (xoff =? csz cc)
      end
      end
  end.

(** Library/hmatrix.c:654-700 [fastaddevaltrans_hmatrix_avector] *)
Fixpoint fastaddevaltrans_hmatrix_avector (alpha : K) (h : hmx) (x y : vec) : prog K unit :=
  match h with
  | HM rc cc r f son rsons csons _ =>
      passert (vdim x =? csz rc) ;;;
      passert (vdim y =? csz cc) ;;;
      match r with
      | Some r => addevaltrans_rkmatrix_avector alpha r x y
      | None =>
      match f with
      | Some f => mvm_amatrix_avector alpha true f x y
      | None =>
          let rec := match son with Some l => Some (map (fun s => (s, fastaddevaltrans_hmatrix_avector alpha s)) l) | None => None end in
          yoff <- forS 0 csons (fun j yoff =>
            sj <- sget rec (j * rsons) ;;
            y1 <- init_sub_avector y (hcols (fst sj)) yoff ;;
            xoff <- forS 0 rsons (fun i xoff =>
              si <- sget rec i ;;
              x1 <- init_sub_avector x (hrows (fst si)) xoff ;;
              s <- sget rec (i + j * rsons) ;;
              snd s x1 y1 ;;;
              uninit_avector x1 ;;;
              Ret (xoff + hrows (fst si))) 0 ;;
            passert (xoff =? csz rc) ;;;
            uninit_avector y1 ;;;
            Ret (yoff + hcols (fst sj))) 0 ;;
          passert (yoff =? csz cc)
      end
      end
  end.

(** The permutations of vectors (Library/hmatrix.c:634-648 and similar): [p->v[i] = x->v[idx[i]]]
    with the assertion [ip < x->dim]; [idx] is the index array of the cluster tree, the cluster
    starts at offset [off]. *)
Definition gather (idx : arr nat) (off n : nat) (x p : vec) : prog K unit :=
  for_ 0 n (fun i => ip <- lift (aget idx (off + i)) ;; passert (ip <? vdim x) ;;; v <- vload x ip ;; vstore p i v).
(** Library/hmatrix.c:651-655 and similar: [y->v[idx[i]] = p->v[i]] *)
Definition scatter (idx : arr nat) (off n : nat) (p y : vec) : prog K unit :=
  for_ 0 n (fun i => ip <- lift (aget idx (off + i)) ;; passert (ip <? vdim y) ;;; v <- vload p i ;; vstore y ip v).

(** Library/hmatrix.c:614-652 [addeval_hmatrix_avector]; [ridx] and [cidx] are the index arrays of
    the row and the column cluster tree. *)
Definition addeval_hmatrix_avector (ridx cidx : arr nat) (alpha : K) (h : hmx) (x y : vec) : prog K unit :=
  passert (vdim x =? hcols h) ;;;
  passert (vdim y =? hrows h) ;;;
  xp <- init_avector (vdim x) ;;
  gather cidx (c_off (cp_c (hm_cc h))) (vdim x) x xp ;;;
  yp <- init_avector (vdim y) ;;
  gather ridx (c_off (cp_c (hm_rc h))) (vdim y) y yp ;;;
  fastaddeval_hmatrix_avector alpha h xp yp ;;;
  scatter ridx (c_off (cp_c (hm_rc h))) (vdim y) yp y ;;;
  uninit_avector yp ;;;
  uninit_avector xp.

(** Library/hmatrix.c:702-741 [addevaltrans_hmatrix_avector] *)
Definition addevaltrans_hmatrix_avector (ridx cidx : arr nat) (alpha : K) (h : hmx) (x y : vec) : prog K unit :=
  passert (vdim x =? hrows h) ;;;
  passert (vdim y =? hcols h) ;;;
  xp <- init_avector (vdim x) ;;
  gather ridx (c_off (cp_c (hm_rc h))) (vdim x) x xp ;;;
  yp <- init_avector (vdim y) ;;
  gather cidx (c_off (cp_c (hm_cc h))) (vdim y) y yp ;;;
  fastaddevaltrans_hmatrix_avector alpha h xp yp ;;;
  scatter cidx (c_off (cp_c (hm_cc h))) (vdim y) yp y ;;;
  uninit_avector yp ;;;
  uninit_avector xp.

(** Library/hmatrix.c:557-565 [mvm_hmatrix_avector] *)
Definition mvm_hmatrix_avector (ridx cidx : arr nat) (alpha : K) (atrans : bool) (a : hmx) (x y : vec) : prog K unit :=
  if atrans then addevaltrans_hmatrix_avector ridx cidx alpha a x y else addeval_hmatrix_avector ridx cidx alpha a x y.

(** Library/hmatrix.c:743-809 [addevalsymm_offdiag] *)
Fixpoint addevalsymm_offdiag (alpha : K) (h : hmx) (roff coff : nat) (xp yp : vec) : prog K unit :=
  match h with
  | HM rc cc r f son rsons csons _ =>
      match f with
      | Some f =>
          xp1 <- init_sub_avector xp (csz cc) coff ;;
          yp1 <- init_sub_avector yp (csz rc) roff ;;
          addeval_amatrix_avector alpha f xp1 yp1 ;;;
          uninit_avector yp1 ;;;
          uninit_avector xp1 ;;;
          xp1 <- init_sub_avector xp (csz rc) roff ;;
          yp1 <- init_sub_avector yp (csz cc) coff ;;
          addevaltrans_amatrix_avector alpha f xp1 yp1 ;;;
          uninit_avector yp1 ;;;
          uninit_avector xp1
      | None =>
      match r with
      | Some r =>
          xp1 <- init_sub_avector xp (csz cc) coff ;;
          yp1 <- init_sub_avector yp (csz rc) roff ;;
          addeval_rkmatrix_avector alpha r xp1 yp1 ;;;
          uninit_avector yp1 ;;;
          uninit_avector xp1 ;;;
          xp1 <- init_sub_avector xp (csz rc) roff ;;
          yp1 <- init_sub_avector yp (csz cc) coff ;;
          addevaltrans_rkmatrix_avector alpha r xp1 yp1 ;;;
          uninit_avector yp1 ;;;
          uninit_avector xp1
      | None =>
          match son with
          | None => Fail EAssert
          | Some l =>
              let rec := Some (map (fun s => (s, addevalsymm_offdiag alpha s)) l) in
              coff1 <- forS 0 csons (fun j coff1 =>
                roff1 <- forS 0 rsons (fun i roff1 =>
                  s <- sget rec (i + j * rsons) ;;
                  snd s roff1 coff1 xp yp ;;;
                  si <- sget rec i ;;
                  Ret (roff1 + hrows (fst si))) roff ;;
                passert (roff1 =? roff + csz rc) ;;;
                sj <- sget rec (j * rsons) ;;
                Ret (coff1 + hcols (fst sj))) coff ;;
              passert (coff1 =? coff + csz cc)
          end
      end
      end
  end.

(** Library/hmatrix.c:811-871 [addevalsymm_diag] *)
Fixpoint addevalsymm_diag (alpha : K) (h : hmx) (off : nat) (xp yp : vec) : prog K unit :=
  match h with
  | HM rc cc r f son rsons csons _ =>
      passert (cp_eqb rc cc) ;;;
      match f with
      | Some f =>
          passert (csz rc =? mrows f) ;;;
          passert (csz cc =? mcols f) ;;;
          let n := csz rc in
          xp1 <- init_sub_avector xp n off ;;
          yp1 <- init_sub_avector yp n off ;;
          for_ 0 n (fun j =>
            yj <- vload yp1 j ;; a <- mload f j j ;; xj <- vload xp1 j ;;
            vstore yp1 j (yj + alpha * a * xj)%F ;;;
            for_ (j + 1) (n - (j + 1)) (fun i =>
              yi <- vload yp1 i ;; a <- mload f i j ;; xj <- vload xp1 j ;;
              vstore yp1 i (yi + alpha * a * xj)%F ;;;
              yj <- vload yp1 j ;; a <- mload f i j ;; xi <- vload xp1 i ;;
              vstore yp1 j (yj + alpha * fconj a * xi)%F)) ;;;
          uninit_avector yp1 ;;;
          uninit_avector xp1
      | None =>
          match son with
          | None => Fail EAssert
          | Some l =>
              passert (rsons =? csons) ;;;
              let sons := rsons in
              let rec := Some (map (fun s => (s, addevalsymm_diag alpha s)) l) in
              coff <- forS 0 sons (fun j coff =>
                s <- sget rec (j + j * sons) ;;
                snd s coff xp yp ;;;
                rs <- lift (cp_son rc j) ;;
                roff <- forS (j + 1) (sons - (j + 1)) (fun i roff =>
                  s <- sget rec (i + j * sons) ;;
                  addevalsymm_offdiag alpha (fst s) roff coff xp yp ;;;
                  si <- sget rec i ;;
                  Ret (roff + hrows (fst si))) (coff + csz rs) ;;
                passert (roff =? off + csz rc) ;;;
                sj <- sget rec (j * sons) ;;
                Ret (coff + hcols (fst sj))) off ;;
              passert (coff =? off + csz rc)
          end
      end
  end.

(** Library/hmatrix.c:873-880 [fastaddevalsymm_hmatrix_avector] *)
Definition fastaddevalsymm_hmatrix_avector (alpha : K) (h : hmx) (xp yp : vec) : prog K unit :=
  passert (cp_eqb (hm_rc h) (hm_cc h)) ;;;
  addevalsymm_diag alpha h 0 xp yp.

(** Library/hmatrix.c:882-928 [addevalsymm_hmatrix_avector] *)
Definition addevalsymm_hmatrix_avector (idx : arr nat) (alpha : K) (h : hmx) (x y : vec) : prog K unit :=
  passert (cp_eqb (hm_rc h) (hm_cc h)) ;;;
  passert (vdim x =? hcols h) ;;;
  passert (vdim y =? hrows h) ;;;
  let n := hrows h in
  let off := c_off (cp_c (hm_rc h)) in
  xp <- init_avector n ;;
  gather idx off n x xp ;;;
  yp <- init_avector n ;;
  gather idx off n y yp ;;;
  fastaddevalsymm_hmatrix_avector alpha h xp yp ;;;
  scatter idx off n yp y ;;;
  uninit_avector yp ;;;
  uninit_avector xp.

(** Library/hmatrix.c:985-990 [norm2_hmatrix] and 1000-1006 [norm2diff_hmatrix] *)
Definition norm2_hmatrix (sq : K -> K) (pos : K -> bool) (rnd : nat -> K) (ridx cidx : arr nat) (h : hmx) : prog K K :=
  norm2_matrix sq pos rnd (fun alpha t => mvm_hmatrix_avector ridx cidx alpha t h) (hrows h) (hcols h).
Definition norm2diff_hmatrix (sq : K -> K) (pos : K -> bool) (rnd : nat -> K) (ridx cidx : arr nat) (a b : hmx) : prog K K :=
  norm2diff_matrix sq pos rnd (fun alpha t => mvm_hmatrix_avector ridx cidx alpha t a) (fun alpha t => mvm_hmatrix_avector ridx cidx alpha t b)
    (hrows a) (hcols a).
End Hmatrix.
