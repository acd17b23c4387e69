(** * Cluster geometries and cluster trees

    Library/clustergeometry.c and Library/cluster.c.

    The index array [idx] of the caller is one array shared by all clusters of a
    tree; the pointer [t->idx] of a cluster is modelled by an offset into it.
    All [uint] values are unbounded here: they are bounded by the length of the
    index array. *)
From Coq Require Import Arith Lia List Bool.
From Verif Require Import Fld Ord Prog Arr.
Import ListNotations.

(** struct _clustergeometry, Library/clustergeometry.h.  The pointers [x],
    [smin], [smax] into one buffer are modelled as arrays of rows. *)
Record cgeom (K : ofops) := CGeom {
  g_dim : nat;
  g_nidx : nat;
  g_x : arr (arr K);
  g_smin : arr (arr K);
  g_smax : arr (arr K);
  g_w : arr K;
  g_hmin : arr K;
  g_hmax : arr K
}.
Arguments CGeom {K}. Arguments g_dim {K}. Arguments g_nidx {K}. Arguments g_x {K}.
Arguments g_smin {K}. Arguments g_smax {K}. Arguments g_w {K}.
Arguments g_hmin {K}. Arguments g_hmax {K}.

(** Assignments to [cf->hmin] and [cf->hmax]. *)
Definition set_h {K : ofops} (cf : cgeom K) (hmin hmax : arr K) : cgeom K :=
  CGeom (g_dim cf) (g_nidx cf) (g_x cf) (g_smin cf) (g_smax cf) (g_w cf) hmin hmax.

(** [a[i][j]] *)
Definition aget2 {A} (a : arr (arr A)) (i j : nat) : res A :=
  let* r := aget a i in aget r j.

(** struct _cluster, Library/cluster.h:33-70.  [desc] is not initialised by
    [new_cluster], hence the option. *)
Inductive cluster (K : ofops) : Type :=
| Cl (size off : nat) (sons : list (cluster K)) (dim : nat) (bmin bmax : arr K)
     (desc : option nat) (typ : nat).
Arguments Cl {K}.

Definition c_size {K : ofops} (t : cluster K) := match t with Cl x _ _ _ _ _ _ _ => x end.
Definition c_off {K : ofops} (t : cluster K) := match t with Cl _ x _ _ _ _ _ _ => x end.
Definition c_sons {K : ofops} (t : cluster K) := match t with Cl _ _ x _ _ _ _ _ => x end.
Definition c_dim {K : ofops} (t : cluster K) := match t with Cl _ _ _ x _ _ _ _ => x end.
Definition c_bmin {K : ofops} (t : cluster K) := match t with Cl _ _ _ _ x _ _ _ => x end.
Definition c_bmax {K : ofops} (t : cluster K) := match t with Cl _ _ _ _ _ x _ _ => x end.
Definition c_desc {K : ofops} (t : cluster K) := match t with Cl _ _ _ _ _ _ x _ => x end.
Definition c_typ {K : ofops} (t : cluster K) := match t with Cl _ _ _ _ _ _ _ x => x end.

(** Reading [t->desc]. *)
Definition get_desc {K : ofops} (t : cluster K) : res nat :=
  match c_desc t with Some d => Ok d | None => Err EUninit end.

(** update_point_bbox_clustergeometry, Library/clustergeometry.c:72-94;
    [idx] points to offset [off]. *)
Definition update_point_bbox {K : ofops} (cf : cgeom K) (idx : arr nat) (off size : nat) : res (cgeom K) :=
  do* rassert (0 <? size) in
  let* (h1, h2) := rfor 0 (g_dim cf) (fun j '(h1, h2) =>
    let* k := aget idx off in
    let* v1 := aget2 (g_x cf) k j in
    let* v2 := aget2 (g_x cf) k j in
    let* h1 := aset h1 j v1 in
    let* h2 := aset h2 j v2 in
    Ok (h1, h2)) (g_hmin cf, g_hmax cf) in
  let* (h1, h2) := rfor 1 (size - 1) (fun i '(h1, h2) =>
    rfor 0 (g_dim cf) (fun j '(h1, h2) =>
      let* k := aget idx (off + i) in
      let* v1 := aget2 (g_x cf) k j in
      let* m1 := aget h1 j in
      let* h1 := (if flt v1 m1 then aset h1 j v1 else Ok h1) in
      let* v2 := aget2 (g_x cf) k j in
      let* m2 := aget h2 j in
      let* h2 := (if flt m2 v2 then aset h2 j v2 else Ok h2) in
      Ok (h1, h2)) (h1, h2)) (h1, h2) in
  Ok (set_h cf h1 h2).

(** update_support_bbox_cluster, Library/clustergeometry.c:96-118. *)
Definition update_support_bbox {K : ofops} (cf : cgeom K) (idx : arr nat) (t : cluster K) : res (cluster K) :=
  match t with
  | Cl size off sons dim bmin bmax desc typ =>
    do* rassert (0 <? size) in
    let* (b1, b2) := rfor 0 (g_dim cf) (fun j '(b1, b2) =>
      let* k := aget idx off in
      let* v1 := aget2 (g_smin cf) k j in
      let* v2 := aget2 (g_smax cf) k j in
      let* b1 := aset b1 j v1 in
      let* b2 := aset b2 j v2 in
      Ok (b1, b2)) (bmin, bmax) in
    let* (b1, b2) := rfor 1 (size - 1) (fun i '(b1, b2) =>
      rfor 0 (g_dim cf) (fun j '(b1, b2) =>
        let* k := aget idx (off + i) in
        let* v1 := aget2 (g_smin cf) k j in
        let* m1 := aget b1 j in
        let* b1 := (if flt v1 m1 then aset b1 j v1 else Ok b1) in
        let* v2 := aget2 (g_smax cf) k j in
        let* m2 := aget b2 j in
        let* b2 := (if flt m2 v2 then aset b2 j v2 else Ok b2) in
        Ok (b1, b2)) (b1, b2)) (b1, b2) in
    Ok (Cl size off sons dim b1 b2 desc typ)
  end.

(** update_bbox_cluster, Library/clustergeometry.c:120-138.
    [assert(t->son > 0)] fails for a cluster without sons. *)
Definition update_bbox {K : ofops} (t : cluster K) : res (cluster K) :=
  match t with
  | Cl size off sons dim bmin bmax desc typ =>
    match sons with
    | [] => Err EAssert
    | s0 :: rest =>
      let* (b1, b2) := rfor 0 dim (fun j '(b1, b2) =>
        let* v1 := aget (c_bmin s0) j in
        let* b1 := aset b1 j v1 in
        let* v2 := aget (c_bmax s0) j in
        let* b2 := aset b2 j v2 in
        Ok (b1, b2)) (bmin, bmax) in
      let* (b1, b2) := rfold (fun s '(b1, b2) =>
        rfor 0 dim (fun j '(b1, b2) =>
          let* m1 := aget b1 j in
          let* v1 := aget (c_bmin s) j in
          let* b1 := aset b1 j (fmin m1 v1) in
          let* m2 := aget b2 j in
          let* v2 := aget (c_bmax s) j in
          let* b2 := aset b2 j (fmax m2 v2) in
          Ok (b1, b2)) (b1, b2)) rest (b1, b2) in
      Ok (Cl size off sons dim b1 b2 desc typ)
    end
  end.

(** new_cluster, Library/cluster.c:22-46.  The son pointers, initially null,
    are assigned by the callers; the model passes the finished sons. *)
Definition new_cluster {K : ofops} (size off : nat) (sons : list (cluster K)) (dim : nat) : cluster K :=
  Cl size off sons dim (anew dim) (anew dim) None 0.

(** update_cluster, Library/cluster.c:63-73. *)
Definition update_cluster {K : ofops} (t : cluster K) : res (cluster K) :=
  match t with
  | Cl size off sons dim bmin bmax _ typ =>
    let* d := rfold (fun s d => let* ds := get_desc s in Ok (d + ds)) sons 1 in
    Ok (Cl size off sons dim bmin bmax (Some d) typ)
  end.

(** ** Construction *)

(** The partition loops of build_adaptive_cluster (Library/cluster.c:112-122),
    build_regular_cluster (202-212), build_help_cluster (303-313) and
    build_pca_cluster (499-522): [test k] says whether index [k] goes to the
    first part.  Returns the array, [size0] and [size1]. *)
Definition split_idx (test : nat -> res bool) (idx : arr nat) (off size : nat)
  : res (arr nat * nat * nat) :=
  rfor 0 size (fun i '(idx, size0, size1) =>
    let* k := aget idx (off + i) in
    let* b := test k in
    if b then
      let* j := aget idx (off + i) in
      let* k0 := aget idx (off + size0) in
      let* idx := aset idx (off + i) k0 in
      let* idx := aset idx (off + size0) j in
      Ok (idx, S size0, size1)
    else Ok (idx, size0, S size1)) (idx, 0, 0).

(** [cf->x[k][direction] < m] *)
Definition left_of {K : ofops} (cf : cgeom K) (dir : nat) (m : K) (k : nat) : res bool :=
  let* v := aget2 (g_x cf) k dir in Ok (flt v m).

(** Direction of the largest extent, Library/cluster.c:95-104. *)
Definition max_dir {K : ofops} (cf : cgeom K) : res (nat * K) :=
  let* b0 := aget (g_hmax cf) 0 in
  let* a0 := aget (g_hmin cf) 0 in
  rfor 1 (g_dim cf - 1) (fun j '(d, a) =>
    let* b := aget (g_hmax cf) j in
    let* c := aget (g_hmin cf) j in
    let m := fsub b c in
    Ok (if flt a m then (j, m) else (d, a))) (0, fsub b0 a0).

(** [(cf->hmax[d] + cf->hmin[d]) / 2.0] *)
Definition midpoint {K : ofops} (cf : cgeom K) (d : nat) : res K :=
  let* b := aget (g_hmax cf) d in
  let* a := aget (g_hmin cf) d in
  Ok (fdiv (fadd b a) f2).

(** [new_cluster(size, idx, 0, cf->dim)] followed by
    update_support_bbox_cluster. *)
Definition leaf_cluster {K : ofops} (cf : cgeom K) (idx : arr nat) (off size : nat) : res (cluster K) :=
  update_support_bbox cf idx (new_cluster size off [] (g_dim cf)).

(** build_adaptive_cluster, Library/cluster.c:79-167.  [fuel] bounds the
    recursion depth; the geometry is returned because [hmin] and [hmax] are
    overwritten, the index array because it is rearranged. *)
Fixpoint build_adaptive {K : ofops} (fuel : nat) (cf : cgeom K) (idx : arr nat) (off size clf : nat)
  : res (cluster K * cgeom K * arr nat) :=
  match fuel with
  | O => Err EFuel
  | S fuel =>
    do* rassert (0 <? size) in
    let* (t, cf, idx) :=
      (if clf <? size then
         let* cf := update_point_bbox cf idx off size in
         let* (dir, a) := max_dir cf in
         if flt f0 a then
           let* m := midpoint cf dir in
           let* (idx, size0, size1) := split_idx (left_of cf dir m) idx off size in
           if 0 <? size0 then
             if 0 <? size1 then
               let* (t0, cf, idx) := build_adaptive fuel cf idx off size0 clf in
               let* (t1, cf, idx) := build_adaptive fuel cf idx (off + size0) size1 clf in
               let* t := update_bbox (new_cluster size off [t0; t1] (g_dim cf)) in
               Ok (t, cf, idx)
             else
               do* rassert (size0 =? size) in
               let* t := update_bbox (new_cluster size off [] (g_dim cf)) in
               Ok (t, cf, idx)
           else
             do* rassert (0 <? size1) in
             do* rassert (size1 =? size) in
             let* t := update_bbox (new_cluster size off [] (g_dim cf)) in
             Ok (t, cf, idx)
         else
           do* rassert (feqb a f0) in
           let* t := leaf_cluster cf idx off size in
           Ok (t, cf, idx)
       else
         let* t := leaf_cluster cf idx off size in
         Ok (t, cf, idx)) in
    let* t := update_cluster t in
    Ok (t, cf, idx)
  end.

(** [cf->hmin[d] = v] and [cf->hmax[d] = v] *)
Definition put_hmin {K : ofops} (cf : cgeom K) (d : nat) (v : K) : res (cgeom K) :=
  let* h := aset (g_hmin cf) d v in Ok (set_h cf h (g_hmax cf)).
Definition put_hmax {K : ofops} (cf : cgeom K) (d : nat) (v : K) : res (cgeom K) :=
  let* h := aset (g_hmax cf) d v in Ok (set_h cf (g_hmin cf) h).

(** build_regular_cluster, Library/cluster.c:169-281. *)
Fixpoint build_regular {K : ofops} (fuel : nat) (cf : cgeom K) (idx : arr nat) (off size clf dir : nat)
  : res (cluster K * cgeom K * arr nat) :=
  match fuel with
  | O => Err EFuel
  | S fuel =>
    do* rassert (0 <? size) in
    let* (t, cf, idx) :=
      (if clf <? size then
         let* cf := update_point_bbox cf idx off size in
         let newd := if dir <? g_dim cf - 1 then dir + 1 else 0 in
         let* b := aget (g_hmax cf) dir in
         let* a := aget (g_hmin cf) dir in
         if flt f0 (fsub b a) then
           let* m := midpoint cf dir in
           let* (idx, size0, size1) := split_idx (left_of cf dir m) idx off size in
           if 0 <? size0 then
             if 0 <? size1 then
               let* a := aget (g_hmin cf) dir in
               let* b := aget (g_hmax cf) dir in
               let* cf := put_hmax cf dir m in
               let* (t0, cf, idx) := build_regular fuel cf idx off size0 clf newd in
               let* cf := put_hmax cf dir b in
               let* cf := put_hmin cf dir m in
               let* (t1, cf, idx) := build_regular fuel cf idx (off + size0) size1 clf newd in
               let* cf := put_hmin cf dir a in
               let* t := update_bbox (new_cluster size off [t0; t1] (g_dim cf)) in
               Ok (t, cf, idx)
             else
               let* b := aget (g_hmax cf) dir in
               let* cf := put_hmax cf dir m in
               let* (t0, cf, idx) := build_regular fuel cf idx off size clf newd in
               let* cf := put_hmax cf dir b in
               let* t := update_bbox (new_cluster size off [t0] (g_dim cf)) in
               Ok (t, cf, idx)
           else
             do* rassert (0 <? size1) in
             let* a := aget (g_hmin cf) dir in
             let* cf := put_hmin cf dir m in
             let* (t0, cf, idx) := build_regular fuel cf idx off size clf newd in
             let* cf := put_hmin cf dir a in
             let* t := update_bbox (new_cluster size off [t0] (g_dim cf)) in
             Ok (t, cf, idx)
         else
           do* rassert (feqb (fsub b a) f0) in
           let* (t0, cf, idx) := build_regular fuel cf idx off size clf newd in
           let* t := update_bbox (new_cluster size off [t0] (g_dim cf)) in
           Ok (t, cf, idx)
       else
         let* t := leaf_cluster cf idx off size in
         Ok (t, cf, idx)) in
    let* t := update_cluster t in
    Ok (t, cf, idx)
  end.

(** build_help_cluster, Library/cluster.c:284-373; [rem] is the number of
    directions left, [dir = dim - rem]. *)
Fixpoint build_help {K : ofops} (rem : nat) (cf : cgeom K) (idx : arr nat) (off size clf dir : nat)
  (leaves : nat) : res (cluster K * cgeom K * arr nat * nat) :=
  match rem with
  | O =>
    (* s->bmin[i] = cf->hmin[i]; s->bmax[i] = cf->hmax[i] *)
    let* (b1, b2) := rfor 0 (g_dim cf) (fun i '(b1, b2) =>
      let* v1 := aget (g_hmin cf) i in
      let* b1 := aset b1 i v1 in
      let* v2 := aget (g_hmax cf) i in
      let* b2 := aset b2 i v2 in
      Ok (b1, b2)) (anew (g_dim cf), anew (g_dim cf)) in
    Ok (Cl size off [] (g_dim cf) b1 b2 None 0, cf, idx, leaves + 1)
  | S rem =>
    let* b := aget (g_hmax cf) dir in
    let* a := aget (g_hmin cf) dir in
    if flt f0 (fsub b a) then
      let* m := midpoint cf dir in
      let* (idx, size0, size1) := split_idx (left_of cf dir m) idx off size in
      if 0 <? size0 then
        if 0 <? size1 then
          let* cf := put_hmax cf dir m in
          let* (s0, cf, idx, leaves) := build_help rem cf idx off size0 clf (dir + 1) leaves in
          let* cf := put_hmax cf dir b in
          let* cf := put_hmin cf dir m in
          let* (s1, cf, idx, leaves) :=
            build_help rem cf idx (off + size0) size1 clf (dir + 1) leaves in
          let* cf := put_hmin cf dir a in
          Ok (new_cluster size off [s0; s1] (g_dim cf), cf, idx, leaves)
        else
          let* cf := put_hmax cf dir m in
          let* (s0, cf, idx, leaves) := build_help rem cf idx off size clf (dir + 1) leaves in
          let* cf := put_hmax cf dir b in
          Ok (new_cluster size off [s0] (g_dim cf), cf, idx, leaves)
      else
        do* rassert (0 <? size1) in
        let* cf := put_hmin cf dir m in
        let* (s0, cf, idx, leaves) := build_help rem cf idx off size clf (dir + 1) leaves in
        let* cf := put_hmin cf dir a in
        Ok (new_cluster size off [s0] (g_dim cf), cf, idx, leaves)
    else
      do* rassert (feqb (fsub b a) f0) in
      let* (s0, cf, idx, leaves) := build_help rem cf idx off size clf (dir + 1) leaves in
      Ok (new_cluster size off [s0] (g_dim cf), cf, idx, leaves)
  end.

(** leaves_into_sons, Library/cluster.c:376-398; [build] is the recursive call
    of build_simsub_cluster.  The state holds the geometry, the index array,
    the array [t->son] and the counter.  Releasing [s] is not modelled. *)
Fixpoint leaves_into_sons {K : ofops}
  (build : cgeom K -> arr nat -> nat -> nat -> res (cluster K * cgeom K * arr nat))
  (s : cluster K) (st : cgeom K * arr nat * arr (cluster K) * nat)
  : res (cgeom K * arr nat * arr (cluster K) * nat) :=
  match s with
  | Cl size off sons dim bmin bmax desc typ =>
    match sons with
    | [] =>
      let '(cf, idx, son, leaves) := st in
      let* (h1, h2) := rfor 0 (g_dim cf) (fun i '(h1, h2) =>
        let* v1 := aget bmin i in
        let* h1 := aset h1 i v1 in
        let* v2 := aget bmax i in
        let* h2 := aset h2 i v2 in
        Ok (h1, h2)) (g_hmin cf, g_hmax cf) in
      let* (t, cf, idx) := build (set_h cf h1 h2) idx off size in
      let* son := aset son leaves t in
      Ok (cf, idx, son, leaves + 1)
    | _ => rfold (fun s1 st => leaves_into_sons build s1 st) sons st
    end
  end.

(** All entries of a pointer array. *)
Definition aall {A} (a : arr A) : res (list A) :=
  rmap (fun o => match o with Some x => Ok x | None => Err ENull end) a.

(** build_simsub_cluster, Library/cluster.c:400-429. *)
Fixpoint build_simsub {K : ofops} (fuel : nat) (clf : nat) (cf : cgeom K) (idx : arr nat) (off size : nat)
  : res (cluster K * cgeom K * arr nat) :=
  match fuel with
  | O => Err EFuel
  | S fuel =>
    do* rassert (0 <? size) in
    let* (t, cf, idx) :=
      (if clf <? size then
         let* (s, cf, idx, leaves) := build_help (g_dim cf) cf idx off size clf 0 0 in
         let* (cf, idx, son, _) :=
           leaves_into_sons (build_simsub fuel clf) s (cf, idx, anew leaves, 0) in
         let* sons := aall son in
         let* t := update_bbox (new_cluster size off sons (g_dim cf)) in
         Ok (t, cf, idx)
       else
         let* t := leaf_cluster cf idx off size in
         Ok (t, cf, idx)) in
    let* t := update_cluster t in
    Ok (t, cf, idx)
  end.

(** The separation plane of build_pca_cluster, Library/cluster.c:451-523: the
    centre of mass [x], the weighted covariance matrix [C] and the test
    [<x_i - x, v> >= 0].  [eig d C] is the last column of the matrix of
    eigenvectors computed by eig_amatrix; it is a parameter. *)
Definition pca_center {K : ofops} (cf : cgeom K) (idx : arr nat) (off size : nat) : res (arr K) :=
  let* w := rfor 0 size (fun i w =>
    let* k := aget idx (off + i) in let* wk := aget (g_w cf) k in Ok (fadd w wk)) f0 in
  let w := finv w in
  let* x := rfor 0 (g_dim cf) (fun j x => aset x j f0) (anew (g_dim cf)) in
  let* x := rfor 0 size (fun i x =>
    rfor 0 (g_dim cf) (fun j x =>
      let* k := aget idx (off + i) in
      let* wk := aget (g_w cf) k in
      let* v := aget2 (g_x cf) k j in
      let* xj := aget x j in
      aset x j (fadd xj (fmul wk v))) x) x in
  rfor 0 (g_dim cf) (fun j x => let* xj := aget x j in aset x j (fmul xj w)) x.

Definition pca_shift {K : ofops} (cf : cgeom K) (x : arr K) (k : nat) : res (arr K) :=
  rfor 0 (g_dim cf) (fun j y =>
    let* v := aget2 (g_x cf) k j in
    let* xj := aget x j in
    aset y j (fsub v xj)) (anew (g_dim cf)).

Definition pca_cov {K : ofops} (cf : cgeom K) (x : arr K) (idx : arr nat) (off size : nat) : res (arr K) :=
  let dim := g_dim cf in
  rfor 0 size (fun i c =>
    let* k := aget idx (off + i) in
    let* y := pca_shift cf x k in
    rfor 0 dim (fun j c =>
      rfor 0 dim (fun l c =>
        let* wk := aget (g_w cf) k in
        let* yj := aget y j in
        let* yl := aget y l in
        let* v := aget c (j + l * dim) in
        aset c (j + l * dim) (fadd v (fmul (fmul wk yj) yl))) c) c)
    (aof (repeat f0 (dim * dim))).

Definition pca_test {K : ofops} (cf : cgeom K) (x v : arr K) (k : nat) : res bool :=
  let* y := pca_shift cf x k in
  let* w := rfor 0 (g_dim cf) (fun j w =>
    let* yj := aget y j in
    let* vj := aget v j in
    Ok (fadd w (fmul yj vj))) f0 in
  Ok (fleb f0 w).

(** build_pca_cluster, Library/cluster.c:431-567. *)
Fixpoint build_pca {K : ofops} (eig : nat -> arr K -> arr K) (fuel : nat) (cf : cgeom K) (idx : arr nat)
  (off size clf : nat) : res (cluster K * cgeom K * arr nat) :=
  match fuel with
  | O => Err EFuel
  | S fuel =>
    do* rassert (0 <? size) in
    let* (t, cf, idx) :=
      (if clf <? size then
         let* x := pca_center cf idx off size in
         let* c := pca_cov cf x idx off size in
         let v := eig (g_dim cf) c in
         let* (idx, size0, size1) := split_idx (pca_test cf x v) idx off size in
         do* rassert (size0 + size1 =? size) in
         if 0 <? size0 then
           if 0 <? size1 then
             let* (t0, cf, idx) := build_pca eig fuel cf idx off size0 clf in
             let* (t1, cf, idx) := build_pca eig fuel cf idx (off + size0) size1 clf in
             let* t := update_bbox (new_cluster size off [t0; t1] (g_dim cf)) in
             Ok (t, cf, idx)
           else
             let* (t0, cf, idx) := build_pca eig fuel cf idx off size0 clf in
             let* t := update_bbox (new_cluster size off [t0] (g_dim cf)) in
             Ok (t, cf, idx)
         else
           do* rassert (0 <? size1) in
           let* (t0, cf, idx) := build_pca eig fuel cf idx off size1 clf in
           let* t := update_bbox (new_cluster size off [t0] (g_dim cf)) in
           Ok (t, cf, idx)
       else
         let* t := leaf_cluster cf idx off size in
         Ok (t, cf, idx)) in
    let* t := update_cluster t in
    Ok (t, cf, idx)
  end.

(** enum clustermode, Library/cluster.h. *)
Inductive clustermode := H2_ADAPTIVE | H2_REGULAR | H2_SIMSUB | H2_PCA.

(** build_cluster, Library/cluster.c:569-592. *)
Definition build_cluster {K : ofops} (eig : nat -> arr K -> arr K) (fuel : nat) (cf : cgeom K)
  (idx : arr nat) (off size clf : nat) (mode : clustermode) : res (cluster K * cgeom K * arr nat) :=
  match mode with
  | H2_ADAPTIVE => build_adaptive fuel cf idx off size clf
  | H2_REGULAR =>
    let* cf := update_point_bbox cf idx off size in build_regular fuel cf idx off size clf 0
  | H2_PCA => build_pca eig fuel cf idx off size clf
  | H2_SIMSUB =>
    let* cf := update_point_bbox cf idx off size in build_simsub fuel clf cf idx off size
  end.

(** ** Statistics *)

(** getdepth_cluster, Library/cluster.c:598-614. *)
Fixpoint getdepth {K : ofops} (t : cluster K) : nat :=
  match t with
  | Cl _ _ sons _ _ _ _ _ =>
    match sons with
    | [] => 0
    | _ => S (fold_left (fun l s => Nat.max (getdepth s) l) sons 0)
    end
  end.

(** getmindepth_cluster, Library/cluster.c:616-633. *)
Fixpoint getmindepth {K : ofops} (t : cluster K) : nat :=
  match t with
  | Cl _ _ sons _ _ _ _ _ =>
    match sons with
    | [] => 0
    | s0 :: rest => S (fold_left (fun l s => Nat.min (getmindepth s) l) rest (getmindepth s0))
    end
  end.

(** ** Structure adaptation.  The functions change the tree in place; here they
    return the changed tree. *)

Definition with_sons {K : ofops} (t : cluster K) (sons : list (cluster K)) : cluster K :=
  match t with Cl size off _ dim b1 b2 d typ => Cl size off sons dim b1 b2 d typ end.

(** The part of extend_cluster below a leaf, Library/cluster.c:646-656: a chain
    of sons with the same indices and a copy of the box. *)
Fixpoint extend_leaf {K : ofops} (depth : nat) (t : cluster K) : res (cluster K) :=
  match depth with
  | O => update_cluster t
  | S depth =>
    let* (b1, b2) := rfor 0 (c_dim t) (fun i '(b1, b2) =>
      let* v1 := aget (c_bmin t) i in
      let* b1 := aset b1 i v1 in
      let* v2 := aget (c_bmax t) i in
      let* b2 := aset b2 i v2 in
      Ok (b1, b2)) (anew (c_dim t), anew (c_dim t)) in
    let* s := extend_leaf depth (Cl (c_size t) (c_off t) [] (c_dim t) b1 b2 None 0) in
    update_cluster (with_sons t [s])
  end.

(** extend_cluster, Library/cluster.c:639-659. *)
Fixpoint extend_cluster {K : ofops} (t : cluster K) (depth : nat) : res (cluster K) :=
  match t with
  | Cl size off sons dim b1 b2 d typ =>
    match sons, depth with
    | [], _ => extend_leaf depth t
    | _, O => update_cluster t
    | _, S depth =>
      let* sons := rmap (fun s => extend_cluster s depth) sons in
      update_cluster (Cl size off sons dim b1 b2 d typ)
    end
  end.

(** cut_cluster, Library/cluster.c:661-678. *)
Fixpoint cut_cluster {K : ofops} (t : cluster K) (depth : nat) : res (cluster K) :=
  match t with
  | Cl size off sons dim b1 b2 d typ =>
    match sons, depth with
    | [], _ => update_cluster t
    | _, O => update_cluster (Cl size off [] dim b1 b2 d typ)
    | _, S depth =>
      let* sons := rmap (fun s => cut_cluster s depth) sons in
      update_cluster (Cl size off sons dim b1 b2 d typ)
    end
  end.

(** balance_cluster, Library/cluster.c:680-696. *)
Fixpoint balance_cluster {K : ofops} (t : cluster K) (depth : nat) : res (cluster K) :=
  match t with
  | Cl size off sons dim b1 b2 d typ =>
    match sons, depth with
    | [], O => update_cluster t
    | [], S _ => let* t := extend_cluster t depth in update_cluster t
    | _, O => let* t := cut_cluster t depth in update_cluster t
    | _, S depth =>
      let* sons := rmap (fun s => balance_cluster s depth) sons in
      update_cluster (Cl size off sons dim b1 b2 d typ)
    end
  end.

(** coarsen_cluster, Library/cluster.c:698-723. *)
Fixpoint coarsen_cluster {K : ofops} (t : cluster K) (minsize : nat) : res (cluster K) :=
  match t with
  | Cl size off sons dim b1 b2 d typ =>
    if existsb (fun s => c_size s <? minsize) sons then
      update_cluster (Cl size off [] dim b1 b2 d typ)
    else
      let* sons := rmap (fun s => coarsen_cluster s minsize) sons in
      update_cluster (Cl size off sons dim b1 b2 d typ)
  end.

(** ** Bounding boxes *)

(** getdiam_2_cluster, Library/cluster.c:743-754; [sq] is the square root. *)
Definition getdiam_2 {K : ofops} (sq : K -> K) (t : cluster K) : res K :=
  let* d := rfor 0 (c_dim t) (fun i d =>
    let* b := aget (c_bmax t) i in
    let* a := aget (c_bmin t) i in
    Ok (fadd d (fmul (fsub b a) (fsub b a)))) f0 in
  Ok (sq d).

(** getdist_2_cluster, Library/cluster.c:756-772. *)
Definition getdist_2 {K : ofops} (sq : K -> K) (t s : cluster K) : res K :=
  do* rassert (c_dim t =? c_dim s) in
  let* d := rfor 0 (c_dim t) (fun i d =>
    let* tb := aget (c_bmax t) i in
    let* sa := aget (c_bmin s) i in
    if flt tb sa then Ok (fadd d (fmul (fsub sa tb) (fsub sa tb)))
    else
      let* sb := aget (c_bmax s) i in
      let* ta := aget (c_bmin t) i in
      if flt sb ta then Ok (fadd d (fmul (fsub ta sb) (fsub ta sb)))
      else Ok d) f0 in
  Ok (sq d).

(** getdiam_max_cluster, Library/cluster.c:774-790. *)
Definition getdiam_max {K : ofops} (t : cluster K) : res K :=
  rfor 0 (c_dim t) (fun i dm =>
    let* b := aget (c_bmax t) i in
    let* a := aget (c_bmin t) i in
    let d := fsub b a in
    Ok (if flt dm d then d else dm)) f0.

(** getdist_max_cluster, Library/cluster.c:792-818. *)
Definition getdist_max {K : ofops} (t s : cluster K) : res K :=
  do* rassert (c_dim t =? c_dim s) in
  rfor 0 (c_dim t) (fun i dm =>
    let* tb := aget (c_bmax t) i in
    let* sa := aget (c_bmin s) i in
    if flt tb sa then
      let d := fsub sa tb in Ok (if flt dm d then d else dm)
    else
      let* sb := aget (c_bmax s) i in
      let* ta := aget (c_bmin t) i in
      if flt sb ta then
        let d := fsub ta sb in Ok (if flt dm d then d else dm)
      else Ok dm) f0.

(** ** Hierarchical iteration.  Callbacks act on a state of type [S]; a null
    callback is [None]. *)
Definition call {K : ofops} {S : Type} (f : option (cluster K -> nat -> S -> res S)) (t : cluster K) (n : nat) (s : S)
  : res S :=
  match f with Some f => f t n s | None => Ok s end.

(** iterate_cluster, Library/cluster.c:824-846. *)
Fixpoint iterate_cluster {K : ofops} {S : Type} (pre post : option (cluster K -> nat -> S -> res S))
  (t : cluster K) (tname : nat) (s : S) : res S :=
  match t with
  | Cl _ _ sons _ _ _ _ _ =>
    let* s := call pre t tname s in
    let* (tname1, s) := rfold (fun t1 '(tname1, s) =>
      let* s := iterate_cluster pre post t1 tname1 s in
      let* d := get_desc t1 in
      Ok (tname1 + d, s)) sons (tname + 1, s) in
    let* d := get_desc t in
    do* rassert (tname1 =? tname + d) in
    call post t tname s
  end.

(** enumerate, Library/cluster.c:894-909. *)
Fixpoint enumerate {K : ofops} (t : cluster K) (tname : nat) (tn : arr (cluster K)) : res (arr (cluster K)) :=
  match t with
  | Cl _ _ sons _ _ _ _ _ =>
    let* tn := aset tn tname t in
    let* (tname1, tn) := rfold (fun t1 '(tname1, tn) =>
      let* tn := enumerate t1 tname1 tn in
      let* d := get_desc t1 in
      Ok (tname1 + d, tn)) sons (tname + 1, tn) in
    let* d := get_desc t in
    do* rassert (tname1 =? tname + d) in
    Ok tn
  end.

(** enumerate_cluster, Library/cluster.c:911-921. *)
Definition enumerate_cluster {K : ofops} (t : cluster K) : res (arr (cluster K)) :=
  let* d := get_desc t in enumerate t 0 (anew d).
