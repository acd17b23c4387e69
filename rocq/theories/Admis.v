(** * Admissibility conditions

    Library/block.c:28-98.  The functions receive [eta] by a pointer [data]
    to a [real]; here it is an argument.  [sq] is the square root. *)
From Coq Require Import Arith Lia List Bool.
From Verif Require Import Fld Ord Prog Arr Cluster.
Import ListNotations.

(** REAL_MAX3: Library/basic.h:436-438. *)
Definition max3 {K : ofops} (x y z : K) : K :=
  if flt x y then (if flt y z then z else y) else (if flt x z then z else x).

(** admissible_2_cluster: Library/block.c:28-48. *)
Definition admissible_2_cluster {K : ofops} (eta : K) (rc cc : cluster K) : res bool :=
  let* (diamt, diams, dist) := rfor 0 (c_dim rc) (fun i '(diamt, diams, dist) =>
    let* rb := aget (c_bmax rc) i in
    let* ra := aget (c_bmin rc) i in
    let diamt := (diamt + (rb - ra) * (rb - ra))%F in
    let* cb := aget (c_bmax cc) i in
    let* ca := aget (c_bmin cc) i in
    let diams := (diams + (cb - ca) * (cb - ca))%F in
    let a := max3 f0 (ra - cb)%F (ca - rb)%F in
    Ok (diamt, diams, dist + a * a)%F) (f0, f0, f0) in
  Ok (fleb diamt (eta * eta * dist)%F && fleb diams (eta * eta * dist)%F).

(** admissible_max_cluster: Library/block.c:50-61. *)
Definition admissible_max_cluster {K : ofops} (eta : K) (rc cc : cluster K) : res bool :=
  let* diamt := getdiam_max rc in
  let* diams := getdiam_max cc in
  let* dist := getdist_max rc cc in
  Ok (fleb diamt (eta * dist)%F && fleb diams (eta * dist)%F).

(** admissible_sphere_cluster: Library/block.c:63-85.  [fdiv f1 f2] is the
    constant 0.5. *)
Definition admissible_sphere_cluster {K : ofops} (sq : K -> K) (eta : K) (rc cc : cluster K) : res bool :=
  let dim := c_dim rc in
  do* rassert (c_dim cc =? dim) in
  let* diamt := getdiam_2 sq rc in
  let* diams := getdiam_2 sq cc in
  let* dist := rfor 0 dim (fun i dist =>
    let* ra := aget (c_bmin rc) i in
    let* rb := aget (c_bmax rc) i in
    let* ca := aget (c_bmin cc) i in
    let* cb := aget (c_bmax cc) i in
    let a := (fdiv f1 f2 * ((ra + rb) - (ca + cb)))%F in
    Ok (dist + a * a)%F) f0 in
  let dist := (sq dist - fdiv f1 f2 * (diamt + diams))%F in
  Ok (fleb diamt (eta * dist)%F && fleb diams (eta * dist)%F).

(** admissible_2_min_cluster: Library/block.c:87-98. *)
Definition admissible_2_min_cluster {K : ofops} (sq : K -> K) (eta : K) (rc cc : cluster K) : res bool :=
  let* diamt := getdiam_2 sq rc in
  let* diams := getdiam_2 sq cc in
  let* dist := getdist_2 sq rc cc in
  Ok (fleb diamt (eta * dist)%F || fleb diams (eta * dist)%F).
