(** * Polygons in the plane: specification *)
From Coq Require Import Arith List Bool.
From Verif Require Import Fld Ord Prog Arr SurfSpec Curve.
Import ListNotations.
Local Open Scope nat_scope.

(** The curve [m] has [V] vertices [x] and [E] edges [e]. *)
Definition curve_is {K} (m : curve2d K) (V E : nat) (x : nat -> nat -> K) (e : nat -> nat -> nat) : Prop :=
  c2_vertices m = V /\ c2_edges m = E /\ table (c2_x m) 2 V x /\ table (c2_e m) 2 E e /\
  length (c2_n m) = 2 * E /\ length (c2_g m) = E.

(** [n] and [g] are the normal vectors and lengths: for edges with different
    end points the length is positive, its square is the squared distance of
    the end points, and the normal vector is the direction of the edge, turned
    clockwise by a right angle, and has length one. *)
Definition curve_normals {K : ofops} (m : curve2d K) (E : nat) (x : nat -> nat -> K) (e : nat -> nat -> nat) : Prop :=
  exists (n : nat -> nat -> K) (g : nat -> K), table (c2_n m) 2 E n /\ aval (c2_g m) E g /\
  forall i, i < E ->
    let dx := (x (e i 1%nat) 0%nat - x (e i 0%nat) 0%nat)%F in
    let dy := (x (e i 1%nat) 1%nat - x (e i 0%nat) 1%nat)%F in
    (dx <> f0 \/ dy <> f0) ->
    flt f0 (g i) = true /\ (g i * g i)%F = (dx * dx + dy * dy)%F /\
    (g i * n i 0%nat)%F = dy /\ (g i * n i 1%nat)%F = (- dx)%F /\
    (n i 0%nat * n i 0%nat + n i 1%nat * n i 1%nat)%F = f1.

(** A closed polygon: the edges lead from every vertex to the next one, and
    from the last to the first. *)
Definition closed_polygon (n : nat) (e : nat -> nat -> nat) : Prop :=
  forall i, i < n -> e i 0 = i /\ e i 1 = if i + 1 =? n then 0 else i + 1.

(** The vertices of a closed polygon run through the [c] corners [p] in equal
    steps: corner [k] is the vertex [q k], and the [j]-th of the [m] steps from
    there leads to the point [p k + j / m (p (k + 1) - p k)]. *)
Definition equal_steps {K : fops} (n c : nat) (q : nat -> nat) (p x : nat -> nat -> K) : Prop :=
  q 0 = 0 /\ q c = n /\
  forall k, k < c -> q k < q (S k) /\
    (forall h, h < 2 -> x (q k) h = p k h) /\
    forall j h, h < 2 -> q k + j < q (S k) ->
      let p' := p (if k + 1 =? c then 0 else k + 1) h in
      (fnat (q (S k) - q k) * (x (q k + j)%nat h - p k h))%F = (fnat j * (p' - p k h))%F.

(** The corners of the square. *)
Definition square_corner {K : fops} (a : K) (k h : nat) : K :=
  match k, h with
  | 0, 0 => a | 0, _ => a
  | 1, 0 => (- a)%F | 1, _ => a
  | 2, 0 => (- a)%F | 2, _ => (- a)%F
  | _, 0 => a | _, _ => (- a)%F
  end.
(** The number of the vertex at a corner of the square. *)
Definition square_index (n k : nat) : nat :=
  match k with 0 => 0 | 1 => n / 4 | 2 => n / 2 | 3 => 3 * n / 4 | _ => n end.

(** The corners of the star: on circles with radius [r] and [r / 4] in turn. *)
Definition star_corner {K : fops} (sn cs : nat -> nat -> K) (r : K) (k h : nat) : K :=
  let s := if Nat.even k then r else (r / (f2 * f2))%F in
  if h =? 0 then (s * sn k 16)%F else (s * cs k 16)%F.

(** The normal vectors point away from the origin or towards the origin. *)
Definition normals_outward {K : ofops} (m : curve2d K) (n : nat) (x : nat -> nat -> K) : Prop :=
  exists nv, table (c2_n m) 2 n nv /\
  forall i, i < n -> flt f0 (nv i 0%nat * x i 0%nat + nv i 1%nat * x i 1%nat)%F = true.
Definition normals_inward {K : ofops} (m : curve2d K) (n : nat) (x : nat -> nat -> K) : Prop :=
  exists nv, table (c2_n m) 2 n nv /\
  forall i, i < n -> flt (nv i 0%nat * x i 0%nat + nv i 1%nat * x i 1%nat)%F f0 = true.

(** What is used of sine and cosine at the angles [2 pi i / n]. *)
Definition trig_laws {K : ofops} (sn cs : nat -> nat -> K) (n : nat) : Prop :=
  flt f0 (sn 1 n) = true /\
  forall i, i < n -> (sn i n * sn i n + cs i n * cs i n)%F = f1 /\
    let i' := if i + 1 =? n then 0 else i + 1 in
    (sn i n * cs i' n - cs i n * sn i' n)%F = (- sn 1%nat n)%F.
