(** * Cluster bases, Library/clusterbasis.c

    A cluster basis is a value of type [cbasis] whose matrices refer to blocks of memory.  Functions
    that change a cluster basis return the changed value.  Simplifications: reference counters and
    the lists of uniform matrices are not part of this model (sons are not shared), the array of
    sons has no null entries (they only occur while a basis is being built), [uint] arithmetic does
    not wrap around.  [t->idx] is the array [idx] of the whole cluster tree, starting at the offset
    of the cluster [t]. *)
From Coq Require Import Arith Lia List Bool.
From Verif Require Import Fld Ord Prog Arr View Cluster Block Avector Amatrix Hmatrix Par ClusterPar.
Import ListNotations.

(** struct _clusterbasis, Library/clusterbasis.h:40-70 *)
Inductive cbasis (G : ofops) :=
| CB (t : cptr G) (k ktree kbranch : nat) (V E : mat) (son : list (cbasis G)) (Z : option mat).
Arguments CB {G}.
Definition cb_t {G : ofops} (c : cbasis G) := match c with CB x _ _ _ _ _ _ _ => x end.
Definition cb_k {G : ofops} (c : cbasis G) := match c with CB _ x _ _ _ _ _ _ => x end.
Definition cb_ktree {G : ofops} (c : cbasis G) := match c with CB _ _ x _ _ _ _ _ => x end.
Definition cb_kbranch {G : ofops} (c : cbasis G) := match c with CB _ _ _ x _ _ _ _ => x end.
Definition cb_V {G : ofops} (c : cbasis G) := match c with CB _ _ _ _ x _ _ _ => x end.
Definition cb_E {G : ofops} (c : cbasis G) := match c with CB _ _ _ _ _ x _ _ => x end.
Definition cb_son {G : ofops} (c : cbasis G) := match c with CB _ _ _ _ _ _ x _ => x end.
Definition cb_Z {G : ofops} (c : cbasis G) := match c with CB _ _ _ _ _ _ _ x => x end.
(** [cb->t->size] and the offset of [cb->t->idx] *)
Definition cb_size {G : ofops} (c : cbasis G) : nat := csz (cb_t c).
Definition cb_off {G : ofops} (c : cbasis G) : nat := c_off (cp_c (cb_t c)).

Section Clusterbasis.
Context {K : fops} {G : ofops}.
Local Notation cbx := (cbasis G).

(** [for (i = 0; i < cb->sons; i++)] with [cb->son[i]] and a loop-carried value *)
Definition sons {A S} (l : list A) (body : nat -> A -> S -> prog K S) (s : S) : prog K S :=
  forS 0 (length l) (fun i s => a <- sget (Some l) i ;; body i a s) s.

(** [cb->t->son[i]->size] *)
Definition tson_size (t : cptr G) (i : nat) : prog K nat := c <- lift (cp_son t i) ;; Ret (csz c).

(** ** Forward and backward transformation *)

(** Library/clusterbasis.c:555-557 and similar: [xp->v[i] = x->v[cb->t->idx[i]]] *)
Definition cb_gather (idx : arr nat) (off n : nat) (x xp : vec) : prog K unit :=
  for_ 0 n (fun i => ip <- lift (aget idx (off + i)) ;; v <- vload x ip ;; vstore xp i v).
(** Library/clusterbasis.c:788-790 and similar: [y->v[cb->t->idx[i]] += yp->v[i]] *)
Definition cb_scatter (idx : arr nat) (off n : nat) (yp y : vec) : prog K unit :=
  for_ 0 n (fun i => ip <- lift (aget idx (off + i)) ;; a <- vload y ip ;; b <- vload yp i ;; vstore y ip (a + b)%F).

(** Library/clusterbasis.c:523-573 [forward_clusterbasis_avector] without OpenMP *)
Fixpoint forward_clusterbasis_avector (idx : arr nat) (cb : cbx) (x xt : vec) : prog K unit :=
  match cb with
  | CB t k ktree _ V _ l _ =>
      passert (vdim xt =? ktree) ;;;
      xc <- init_sub_avector xt k 0 ;;
      clear_avector xc ;;;
      match l with
      | _ :: _ =>
          let rec := map (fun s => (s, forward_clusterbasis_avector idx s x)) l in
          xtoff <- sons rec (fun i s xtoff =>
            xt1 <- init_sub_avector xt (cb_ktree (fst s)) xtoff ;;
            snd s xt1 ;;;
            mvm_amatrix_avector f1 true (cb_E (fst s)) xt1 xc ;;;
            uninit_avector xt1 ;;;
            Ret (xtoff + cb_ktree (fst s))) k ;;
          passert (xtoff =? ktree)
      | [] =>
          xp <- init_sub_avector xt (csz t) k ;;
          cb_gather idx (c_off (cp_c t)) (csz t) x xp ;;;
          mvm_amatrix_avector f1 true V xp xc ;;;
          uninit_avector xp
      end ;;;
      uninit_avector xc
  end.

(** [for (...) xt1[i] = new_sub_avector(xt, cb->son[i]->ktree, xtoff)], the array of subvectors.
    Simplification: the array itself is not part of the memory. *)
Fixpoint subvecs (xt : vec) (l : list cbx) (off : nat) : list vec :=
  match l with
  | [] => []
  | s :: l' => Vec (vblk xt) (voff xt + off) (cb_ktree s) false :: subvecs xt l' (off + cb_ktree s)
  end.
(** The assertions in [new_sub_avector] and after the loop *)
Definition subvecs_ok (xt : vec) (l : list cbx) (off ktree : nat) : prog K unit :=
  xtoff <- sons l (fun i s xtoff => _ <- init_sub_avector xt (cb_ktree s) xtoff ;; Ret (xtoff + cb_ktree s)) off ;;
  passert (xtoff =? ktree).

(** Library/clusterbasis.c:575-630 [forward_parallel_clusterbasis_avector] (and
    forward_clusterbasis_avector with OpenMP); the iterations of the loop are threads if
    [pardepth > 0]. *)
Fixpoint forward_parallel_clusterbasis_avector (idx : arr nat) (cb : cbx) (x xt : vec) (pardepth : nat) : thr K :=
  match cb with
  | CB t k ktree _ V _ l _ =>
      let xc := Vec (vblk xt) (voff xt + 0) k false in
      Tseq (Tp (passert (vdim xt =? ktree) ;;; xc <- init_sub_avector xt k 0 ;; clear_avector xc))
      match l with
      | _ :: _ =>
          Tseq (Tp (subvecs_ok xt l k ktree))
          (Tseq (tloop (0 <? pardepth)
                   ((fix go l vs := match l, vs with
                     | s :: l', v :: vs' => forward_parallel_clusterbasis_avector idx s x v (pardepth - 1) :: go l' vs'
                     | _, _ => [] end) l (subvecs xt l k)))
                (Tp (sons (combine l (subvecs xt l k)) (fun i s _ =>
                       mvm_amatrix_avector f1 true (cb_E (fst s)) (snd s) xc ;;; uninit_avector (snd s)) tt)))
      | [] =>
          Tp (xp <- init_sub_avector xt (csz t) k ;;
              cb_gather idx (c_off (cp_c t)) (csz t) x xp ;;;
              mvm_amatrix_avector f1 true V xp xc ;;;
              uninit_avector xp)
      end
  end.

(** Library/clusterbasis.c:632-680 [forward_nopermutation_clusterbasis_avector] *)
Fixpoint forward_nopermutation_clusterbasis_avector (cb : cbx) (xp xt : vec) : prog K unit :=
  match cb with
  | CB t k ktree _ V _ l _ =>
      passert (vdim xp =? csz t) ;;;
      passert (vdim xt =? ktree) ;;;
      xc <- init_sub_avector xt k 0 ;;
      clear_avector xc ;;;
      match l with
      | _ :: _ =>
          let rec := map (fun s => (s, forward_nopermutation_clusterbasis_avector s)) l in
          offs <- sons rec (fun i s '(xpoff, xtoff) =>
            n <- tson_size t i ;;
            xp1 <- init_sub_avector xp n xpoff ;;
            xt1 <- init_sub_avector xt (cb_ktree (fst s)) xtoff ;;
            snd s xp1 xt1 ;;;
            uninit_avector xt1 ;;;
            uninit_avector xp1 ;;;
            xt1 <- init_sub_avector xt (cb_k (fst s)) xtoff ;;
            addevaltrans_amatrix_avector f1 (cb_E (fst s)) xt1 xc ;;;
            uninit_avector xt1 ;;;
            Ret (xpoff + n, xtoff + cb_ktree (fst s))) (0, k) ;;
          passert (fst offs =? csz t) ;;;
          passert (snd offs =? ktree)
      | [] =>
          xt1 <- init_sub_avector xt (csz t) k ;;
          copy_avector xp xt1 ;;;
          addevaltrans_amatrix_avector f1 V xt1 xc ;;;
          uninit_avector xt1
      end ;;;
      uninit_avector xc
  end.

(** Library/clusterbasis.c:682-732 [forward_notransfer]: every cluster has its own matrix [V]. *)
Fixpoint forward_notransfer (idx : arr nat) (cb : cbx) (x xt xp : vec) : prog K unit :=
  match cb with
  | CB t k ktree _ V _ l _ =>
      passert (vdim xp =? csz t) ;;;
      passert (vdim xt =? ktree) ;;;
      xc <- init_sub_avector xt k 0 ;;
      clear_avector xc ;;;
      match l with
      | _ :: _ =>
          let rec := map (fun s => (s, forward_notransfer idx s x)) l in
          offs <- sons rec (fun i s '(xtoff, xpoff) =>
            xt1 <- init_sub_avector xt (cb_ktree (fst s)) xtoff ;;
            xp1 <- init_sub_avector xp (cb_size (fst s)) xpoff ;;
            snd s xt1 xp1 ;;;
            uninit_avector xp1 ;;;
            uninit_avector xt1 ;;;
            Ret (xtoff + cb_ktree (fst s), xpoff + cb_size (fst s))) (k, 0) ;;
          passert (fst offs =? ktree) ;;;
          passert (snd offs =? csz t)
      | [] =>
          xt1 <- init_sub_avector xt (csz t) k ;;
          for_ 0 (csz t) (fun i =>
            ip <- lift (aget idx (c_off (cp_c t) + i)) ;;
            passert (ip <? vdim x) ;;;
            v <- vload x ip ;; vstore xp i v ;;;
            v <- vload xp i ;; vstore xt1 i v)
      end ;;;
      mvm_amatrix_avector f1 true V xp xc ;;;
      uninit_avector xc
  end.

(** Library/clusterbasis.c:734-746 [forward_notransfer_clusterbasis_avector] *)
Definition forward_notransfer_clusterbasis_avector (idx : arr nat) (cb : cbx) (x xt : vec) : prog K unit :=
  xp <- init_avector (cb_size cb) ;;
  forward_notransfer idx cb x xt xp ;;;
  uninit_avector xp.

(** Library/clusterbasis.c:748-797 [backward_clusterbasis_avector] without OpenMP *)
Fixpoint backward_clusterbasis_avector (idx : arr nat) (cb : cbx) (yt y : vec) : prog K unit :=
  match cb with
  | CB t k ktree _ V _ l _ =>
      passert (vdim yt =? ktree) ;;;
      yc <- init_sub_avector yt k 0 ;;
      match l with
      | _ :: _ =>
          let rec := map (fun s => (s, fun yt => backward_clusterbasis_avector idx s yt y)) l in
          ytoff <- sons rec (fun i s ytoff =>
            yt1 <- init_sub_avector yt (cb_ktree (fst s)) ytoff ;;
            mvm_amatrix_avector f1 false (cb_E (fst s)) yc yt1 ;;;
            snd s yt1 ;;;
            uninit_avector yt1 ;;;
            Ret (ytoff + cb_ktree (fst s))) k ;;
          passert (ytoff =? ktree)
      | [] =>
          yp <- init_sub_avector yt (csz t) k ;;
          mvm_amatrix_avector f1 false V yc yp ;;;
          cb_scatter idx (c_off (cp_c t)) (csz t) yp y ;;;
          uninit_avector yp
      end ;;;
      uninit_avector yc
  end.

(** Library/clusterbasis.c:799-852 [backward_parallel_clusterbasis_avector] *)
Fixpoint backward_parallel_clusterbasis_avector (idx : arr nat) (cb : cbx) (yt y : vec) (pardepth : nat) : thr K :=
  match cb with
  | CB t k ktree _ V _ l _ =>
      let yc := Vec (vblk yt) (voff yt + 0) k false in
      Tseq (Tp (passert (vdim yt =? ktree) ;;; _ <- init_sub_avector yt k 0 ;; Ret tt))
      match l with
      | _ :: _ =>
          Tseq (Tp (subvecs_ok yt l k ktree))
          (tloop (0 <? pardepth)
             ((fix go l vs := match l, vs with
               | s :: l', v :: vs' =>
                   Tseq (Tp (mvm_amatrix_avector f1 false (cb_E s) yc v))
                        (Tseq (backward_parallel_clusterbasis_avector idx s v y (pardepth - 1)) (Tp (uninit_avector v)))
                   :: go l' vs'
               | _, _ => [] end) l (subvecs yt l k)))
      | [] =>
          Tp (yp <- init_sub_avector yt (csz t) k ;;
              mvm_amatrix_avector f1 false V yc yp ;;;
              cb_scatter idx (c_off (cp_c t)) (csz t) yp y ;;;
              uninit_avector yp)
      end
  end.

(** Library/clusterbasis.c:854-900 [backward_nopermutation_clusterbasis_avector] *)
Fixpoint backward_nopermutation_clusterbasis_avector (cb : cbx) (yt yp : vec) : prog K unit :=
  match cb with
  | CB t k ktree _ V _ l _ =>
      passert (vdim yp =? csz t) ;;;
      passert (vdim yt =? ktree) ;;;
      yc <- init_sub_avector yt k 0 ;;
      match l with
      | _ :: _ =>
          let rec := map (fun s => (s, backward_nopermutation_clusterbasis_avector s)) l in
          offs <- sons rec (fun i s '(ypoff, ytoff) =>
            yt1 <- init_sub_avector yt (cb_k (fst s)) ytoff ;;
            addeval_amatrix_avector f1 (cb_E (fst s)) yc yt1 ;;;
            uninit_avector yt1 ;;;
            n <- tson_size t i ;;
            yp1 <- init_sub_avector yp n ypoff ;;
            yt1 <- init_sub_avector yt (cb_ktree (fst s)) ytoff ;;
            snd s yt1 yp1 ;;;
            uninit_avector yt1 ;;;
            uninit_avector yp1 ;;;
            Ret (ypoff + n, ytoff + cb_ktree (fst s))) (0, k) ;;
          passert (fst offs =? csz t) ;;;
          passert (snd offs =? ktree)
      | [] =>
          yt1 <- init_sub_avector yt (csz t) k ;;
          addeval_amatrix_avector f1 V yc yt1 ;;;
          add_avector f1 yt1 yp ;;;
          uninit_avector yt1
      end ;;;
      uninit_avector yc
  end.

(** Library/clusterbasis.c:902-950 [backward_notransfer] *)
Fixpoint backward_notransfer (idx : arr nat) (cb : cbx) (yt y yp : vec) : prog K unit :=
  match cb with
  | CB t k ktree _ V _ l _ =>
      passert (vdim yp =? csz t) ;;;
      passert (vdim yt =? ktree) ;;;
      yc <- init_sub_avector yt k 0 ;;
      mvm_amatrix_avector f1 false V yc yp ;;;
      match l with
      | _ :: _ =>
          let rec := map (fun s => (s, fun yt yp => backward_notransfer idx s yt y yp)) l in
          offs <- sons rec (fun i s '(ytoff, ypoff) =>
            yt1 <- init_sub_avector yt (cb_ktree (fst s)) ytoff ;;
            yp1 <- init_sub_avector yp (cb_size (fst s)) ypoff ;;
            snd s yt1 yp1 ;;;
            uninit_avector yp1 ;;;
            uninit_avector yt1 ;;;
            Ret (ytoff + cb_ktree (fst s), ypoff + cb_size (fst s))) (k, 0) ;;
          passert (fst offs =? ktree) ;;;
          passert (snd offs =? csz t)
      | [] =>
          yt1 <- init_sub_avector yt (csz t) k ;;
          for_ 0 (csz t) (fun i =>
            ip <- lift (aget idx (c_off (cp_c t) + i)) ;;
            passert (ip <? vdim y) ;;;
            a <- vload y ip ;; b <- vload yp i ;; c <- vload yt1 i ;;
            vstore y ip (a + (b + c))%F)
      end ;;;
      uninit_avector yc
  end.

(** Library/clusterbasis.c:952-965 [backward_notransfer_clusterbasis_avector] *)
Definition backward_notransfer_clusterbasis_avector (idx : arr nat) (cb : cbx) (yt y : vec) : prog K unit :=
  yp <- init_avector (cb_size cb) ;;
  clear_avector yp ;;;
  backward_notransfer idx cb yt y yp ;;;
  uninit_avector yp.

(** ** Transformations for the root only *)

(** Library/clusterbasis.c:971-1009 [compress_clusterbasis_avector] *)
Fixpoint compress_clusterbasis_avector (cb : cbx) (xp xt : vec) : prog K unit :=
  match cb with
  | CB t k _ kbranch V _ l _ =>
      passert (vdim xt =? kbranch) ;;;
      xc <- init_sub_avector xt k 0 ;;
      clear_avector xc ;;;
      match l with
      | _ :: _ =>
          let rec := map (fun s => (s, compress_clusterbasis_avector s)) l in
          off <- sons rec (fun i s off =>
            xt1 <- init_sub_avector xt (cb_kbranch (fst s)) k ;;
            xp1 <- init_sub_avector xp (cb_size (fst s)) off ;;
            snd s xp1 xt1 ;;;
            mvm_amatrix_avector f1 true (cb_E (fst s)) xt1 xc ;;;
            uninit_avector xp1 ;;;
            uninit_avector xt1 ;;;
            Ret (off + cb_size (fst s))) 0 ;;
          passert (off =? csz t)
      | [] => mvm_amatrix_avector f1 true V xp xc
      end ;;;
      uninit_avector xc
  end.

(** Library/clusterbasis.c:1011-1053 [expand_clusterbasis_avector] *)
Fixpoint expand_clusterbasis_avector (cb : cbx) (yt yp : vec) : prog K unit :=
  match cb with
  | CB t k _ kbranch V _ l _ =>
      passert (vdim yt =? kbranch) ;;;
      yc <- init_sub_avector yt k 0 ;;
      match l with
      | _ :: _ =>
          let rec := map (fun s => (s, expand_clusterbasis_avector s)) l in
          off <- sons rec (fun i s off =>
            yt1 <- init_sub_avector yt (cb_k (fst s)) k ;;
            clear_avector yt1 ;;;
            mvm_amatrix_avector f1 false (cb_E (fst s)) yc yt1 ;;;
            uninit_avector yt1 ;;;
            yt1 <- init_sub_avector yt (cb_kbranch (fst s)) k ;;
            yp1 <- init_sub_avector yp (cb_size (fst s)) off ;;
            snd s yt1 yp1 ;;;
            uninit_avector yp1 ;;;
            uninit_avector yt1 ;;;
            Ret (off + cb_size (fst s))) 0 ;;
          passert (off =? csz t)
      | [] => mvm_amatrix_avector f1 false V yc yp
      end ;;;
      uninit_avector yc
  end.

(** Library/clusterbasis.c:1055-1093 [compress_clusterbasis_amatrix] *)
Fixpoint compress_clusterbasis_amatrix (cb : cbx) (Xp Xt : mat) : prog K unit :=
  match cb with
  | CB t k _ kbranch V _ l _ =>
      passert (csz t <=? mrows Xp) ;;;
      passert (kbranch <=? mrows Xt) ;;;
      Xc <- init_sub_amatrix Xt k 0 (mcols Xt) 0 ;;
      clear_amatrix Xc ;;;
      match l with
      | _ :: _ =>
          let rec := map (fun s => (s, compress_clusterbasis_amatrix s)) l in
          off <- sons rec (fun i s xoff =>
            n <- tson_size t i ;;
            Xp1 <- init_sub_amatrix Xp n xoff (mcols Xp) 0 ;;
            Xt1 <- init_sub_amatrix Xt (cb_kbranch (fst s)) k (mcols Xt) 0 ;;
            snd s Xp1 Xt1 ;;;
            uninit_amatrix Xt1 ;;;
            uninit_amatrix Xp1 ;;;
            Xt1 <- init_sub_amatrix Xt (cb_k (fst s)) k (mcols Xt) 0 ;;
            addmul_amatrix f1 true (cb_E (fst s)) false Xt1 Xc ;;;
            uninit_amatrix Xt1 ;;;
            Ret (xoff + n)) 0 ;;
          passert (off =? csz t)
      | [] => addmul_amatrix f1 true V false Xp Xc
      end ;;;
      uninit_amatrix Xc
  end.

(** Library/clusterbasis.c:1095-1152 [compress_parallel_clusterbasis_amatrix] in the order of the
    source text; the recursive calls are the iterations of a parallel loop. *)
Fixpoint compress_parallel_clusterbasis_amatrix (cb : cbx) (Xp Xt : mat) : prog K unit :=
  match cb with
  | CB t k _ kbranch V _ l _ =>
      passert (csz t <=? mrows Xp) ;;;
      passert (kbranch <=? mrows Xt) ;;;
      Xc <- init_sub_amatrix Xt k 0 (mcols Xt) 0 ;;
      clear_amatrix Xc ;;;
      match l with
      | _ :: _ =>
          let rec := map (fun s => (s, compress_parallel_clusterbasis_amatrix s)) l in
          arrs <- sons rec (fun i s '(xoff, Xp1, Xt1, Xr1) =>
            n <- tson_size t i ;;
            p <- init_sub_amatrix Xp n xoff (mcols Xp) 0 ;;
            q <- init_sub_amatrix Xt (cb_kbranch (fst s)) k (mcols Xt) 0 ;;
            r <- init_sub_amatrix Xt (cb_k (fst s)) k (mcols Xt) 0 ;;
            Ret (xoff + n, Xp1 ++ [p], Xt1 ++ [q], Xr1 ++ [r])) (0, [], [], []) ;;
          let '(xoff, Xp1, Xt1, Xr1) := arrs in
          passert (xoff =? csz t) ;;;
          _ <- sons rec (fun i s _ => p <- sget (Some Xp1) i ;; q <- sget (Some Xt1) i ;; snd s p q) tt ;;
          _ <- sons rec (fun i s _ => r <- sget (Some Xr1) i ;; addmul_amatrix f1 true (cb_E (fst s)) false r Xc) tt ;;
          Ret tt
      | [] => addmul_amatrix f1 true V false Xp Xc
      end ;;;
      uninit_amatrix Xc
  end.

(** Library/clusterbasis.c:1154-1195 [expand_clusterbasis_amatrix] *)
Fixpoint expand_clusterbasis_amatrix (cb : cbx) (Yt Yp : mat) : prog K unit :=
  match cb with
  | CB t k _ kbranch V _ l _ =>
      passert (mrows Yt =? kbranch) ;;;
      Yc <- init_sub_amatrix Yt k 0 (mcols Yt) 0 ;;
      match l with
      | _ :: _ =>
          let rec := map (fun s => (s, expand_clusterbasis_amatrix s)) l in
          off <- sons rec (fun i s off =>
            Yt1 <- init_sub_amatrix Yt (cb_k (fst s)) k (mcols Yt) 0 ;;
            clear_amatrix Yt1 ;;;
            addmul_amatrix f1 false (cb_E (fst s)) false Yc Yt1 ;;;
            uninit_amatrix Yt1 ;;;
            Yt1 <- init_sub_amatrix Yt (cb_kbranch (fst s)) k (mcols Yt) 0 ;;
            Yp1 <- init_sub_amatrix Yp (cb_size (fst s)) off (mcols Yt) 0 ;;
            snd s Yt1 Yp1 ;;;
            uninit_amatrix Yp1 ;;;
            uninit_amatrix Yt1 ;;;
            Ret (off + cb_size (fst s))) 0 ;;
          passert (off =? csz t)
      | [] => addmul_amatrix f1 false V false Yc Yp
      end ;;;
      uninit_amatrix Yc
  end.

(** ** Forward and backward transformation for matrices *)

(** Library/clusterbasis.c:1201-1251 [forward_clusterbasis_amatrix] *)
Fixpoint forward_clusterbasis_amatrix (cb : cbx) (Xp Xt : mat) : prog K unit :=
  match cb with
  | CB t k ktree _ V _ l _ =>
      passert (mrows Xp =? csz t) ;;;
      passert (mrows Xt =? ktree) ;;;
      passert (mcols Xp =? mcols Xt) ;;;
      Xc <- init_sub_amatrix Xt k 0 (mcols Xt) 0 ;;
      clear_amatrix Xc ;;;
      match l with
      | _ :: _ =>
          let rec := map (fun s => (s, forward_clusterbasis_amatrix s)) l in
          offs <- sons rec (fun i s '(xpoff, xtoff) =>
            n <- tson_size t i ;;
            Xp1 <- init_sub_amatrix Xp n xpoff (mcols Xp) 0 ;;
            Xt1 <- init_sub_amatrix Xt (cb_ktree (fst s)) xtoff (mcols Xt) 0 ;;
            snd s Xp1 Xt1 ;;;
            uninit_amatrix Xt1 ;;;
            uninit_amatrix Xp1 ;;;
            Xt1 <- init_sub_amatrix Xt (cb_k (fst s)) xtoff (mcols Xt) 0 ;;
            addmul_amatrix f1 true (cb_E (fst s)) false Xt1 Xc ;;;
            uninit_amatrix Xt1 ;;;
            Ret (xpoff + n, xtoff + cb_ktree (fst s))) (0, k) ;;
          passert (fst offs =? csz t) ;;;
          passert (snd offs =? ktree)
      | [] =>
          Xt1 <- init_sub_amatrix Xt (csz t) k (mcols Xt) 0 ;;
          copy_amatrix false Xp Xt1 ;;;
          addmul_amatrix f1 true V false Xt1 Xc ;;;
          uninit_amatrix Xt1
      end ;;;
      uninit_amatrix Xc
  end.

(** Library/clusterbasis.c:1253-1304 [forward_clusterbasis_trans_amatrix] *)
Fixpoint forward_clusterbasis_trans_amatrix (cb : cbx) (Xp Xt : mat) : prog K unit :=
  match cb with
  | CB t k ktree _ V _ l _ =>
      passert (mcols Xp =? csz t) ;;;
      passert (mrows Xt =? ktree) ;;;
      passert (mrows Xp =? mcols Xt) ;;;
      Xc <- init_sub_amatrix Xt k 0 (mcols Xt) 0 ;;
      clear_amatrix Xc ;;;
      match l with
      | _ :: _ =>
          let rec := map (fun s => (s, forward_clusterbasis_trans_amatrix s)) l in
          offs <- sons rec (fun i s '(xpoff, xtoff) =>
            n <- tson_size t i ;;
            Xp1 <- init_sub_amatrix Xp (mrows Xp) 0 n xpoff ;;
            Xt1 <- init_sub_amatrix Xt (cb_ktree (fst s)) xtoff (mcols Xt) 0 ;;
            snd s Xp1 Xt1 ;;;
            uninit_amatrix Xt1 ;;;
            uninit_amatrix Xp1 ;;;
            Xt1 <- init_sub_amatrix Xt (cb_k (fst s)) xtoff (mcols Xt) 0 ;;
            addmul_amatrix f1 true (cb_E (fst s)) false Xt1 Xc ;;;
            uninit_amatrix Xt1 ;;;
            Ret (xpoff + n, xtoff + cb_ktree (fst s))) (0, k) ;;
          passert (fst offs =? csz t) ;;;
          passert (snd offs =? ktree)
      | [] =>
          Xt1 <- init_sub_amatrix Xt (csz t) k (mcols Xt) 0 ;;
          copy_amatrix true Xp Xt1 ;;;
          addmul_amatrix f1 true V false Xt1 Xc ;;;
          uninit_amatrix Xt1
      end ;;;
      uninit_amatrix Xc
  end.

(** Library/clusterbasis.c:1306-1355 [backward_clusterbasis_amatrix] *)
Fixpoint backward_clusterbasis_amatrix (cb : cbx) (Yt Yp : mat) : prog K unit :=
  match cb with
  | CB t k ktree _ V _ l _ =>
      passert (mrows Yp =? csz t) ;;;
      passert (mrows Yt =? ktree) ;;;
      passert (mcols Yp =? mcols Yt) ;;;
      Yc <- init_sub_amatrix Yt k 0 (mcols Yt) 0 ;;
      match l with
      | _ :: _ =>
          let rec := map (fun s => (s, backward_clusterbasis_amatrix s)) l in
          offs <- sons rec (fun i s '(ypoff, ytoff) =>
            Yt1 <- init_sub_amatrix Yt (cb_k (fst s)) ytoff (mcols Yt) 0 ;;
            addmul_amatrix f1 false (cb_E (fst s)) false Yc Yt1 ;;;
            uninit_amatrix Yt1 ;;;
            n <- tson_size t i ;;
            Yp1 <- init_sub_amatrix Yp n ypoff (mcols Yp) 0 ;;
            Yt1 <- init_sub_amatrix Yt (cb_ktree (fst s)) ytoff (mcols Yt) 0 ;;
            snd s Yt1 Yp1 ;;;
            uninit_amatrix Yt1 ;;;
            uninit_amatrix Yp1 ;;;
            Ret (ypoff + n, ytoff + cb_ktree (fst s))) (0, k) ;;
          passert (fst offs =? csz t) ;;;
          passert (snd offs =? ktree)
      | [] =>
          Yt1 <- init_sub_amatrix Yt (csz t) k (mcols Yt) 0 ;;
          addmul_amatrix f1 false V false Yc Yt1 ;;;
          add_amatrix f1 false Yt1 Yp ;;;
          uninit_amatrix Yt1
      end ;;;
      uninit_amatrix Yc
  end.

(** Library/clusterbasis.c:1357-1407 [backward_clusterbasis_trans_amatrix].  The recursive call goes
    to [backward_clusterbasis_amatrix], as in the code. *)
Definition backward_clusterbasis_trans_amatrix (cb : cbx) (Yt Yp : mat) : prog K unit :=
  match cb with
  | CB t k ktree _ V _ l _ =>
      passert (mcols Yp =? csz t) ;;;
      passert (mrows Yt =? ktree) ;;;
      passert (mrows Yp =? mcols Yt) ;;;
      Yc <- init_sub_amatrix Yt k 0 (mcols Yt) 0 ;;
      match l with
      | _ :: _ =>
          offs <- sons l (fun i s '(ypoff, ytoff) =>
            Yt1 <- init_sub_amatrix Yt (cb_k s) ytoff (mcols Yt) 0 ;;
            addmul_amatrix f1 false (cb_E s) false Yc Yt1 ;;;
            uninit_amatrix Yt1 ;;;
            n <- tson_size t i ;;
            Yp1 <- init_sub_amatrix Yp (mrows Yp) 0 n ypoff ;;
            Yt1 <- init_sub_amatrix Yt (cb_ktree s) ytoff (mcols Yt) 0 ;;
            backward_clusterbasis_amatrix s Yt1 Yp1 ;;;
            uninit_amatrix Yt1 ;;;
            uninit_amatrix Yp1 ;;;
            Ret (ypoff + n, ytoff + cb_ktree s)) (0, k) ;;
          passert (fst offs =? csz t) ;;;
          passert (snd offs =? ktree)
      | [] =>
          Yt1 <- init_sub_amatrix Yt (csz t) k (mcols Yt) 0 ;;
          addmul_amatrix f1 false V false Yc Yt1 ;;;
          add_amatrix f1 true Yt1 Yp ;;;
          uninit_amatrix Yt1
      end ;;;
      uninit_amatrix Yc
  end.

(** ** Products with the root matrix *)

(** Library/clusterbasis.c:1413-1460 [addeval_clusterbasis_avector] *)
Definition addeval_clusterbasis_avector (alpha : K) (cb : cbx) (yc yp : vec) : prog K unit :=
  passert (vdim yc =? cb_k cb) ;;;
  passert (vdim yp =? cb_size cb) ;;;
  yt <- init_avector (cb_kbranch cb) ;;
  yt1 <- init_sub_avector yt (cb_k cb) 0 ;;
  copy_avector yc yt1 ;;;
  scale_avector alpha yt1 ;;;
  uninit_avector yt1 ;;;
  expand_clusterbasis_avector cb yt yp ;;;
  uninit_avector yt.

(** Library/clusterbasis.c:1462-1508 [addevaltrans_clusterbasis_avector] *)
Definition addevaltrans_clusterbasis_avector (alpha : K) (cb : cbx) (xp xc : vec) : prog K unit :=
  passert (vdim xp =? cb_size cb) ;;;
  passert (vdim xc =? cb_k cb) ;;;
  xt <- init_avector (cb_kbranch cb) ;;
  compress_clusterbasis_avector cb xp xt ;;;
  xt1 <- init_sub_avector xt (cb_k cb) 0 ;;
  add_avector alpha xt1 xc ;;;
  uninit_avector xt1 ;;;
  uninit_avector xt.
End Clusterbasis.
