(** * Addition, splitting and merging of H-matrices, Library/harith.c

    Functions that change an H-matrix return the changed one, since the factors of low-rank leaves
    may be reallocated.  Parameters: [svd] stands for [svd_amatrix] (Library/eigensolvers.c, not
    modelled), [rank] for [findrank_truncmode] with its first two arguments (modelled in Trunc.v).
    The macros HARITH_RKMATRIX_QUICK_EXIT and HARITH_AMATRIX_QUICK_EXIT are set as in
    options.inc.default: the first is, the second is not.  Reference counters are not modelled. *)
From Coq Require Import Arith Lia List Bool.
From Verif Require Import Fld Ord Prog Arr View Cluster Block Avector Amatrix Factor Chol Qr Rkmatrix Htrunc Hmatrix.
Import ListNotations.

Section Merge.
Context {K : fops} (O : qops K).
Context (svd : mat -> vec -> mat -> mat -> prog K unit) (rank : vec -> prog K nat).

(** ** Merging two low-rank matrices

    The two branches of [merge_aq_rkmatrix] are mirror images with the factors exchanged, so the
    common sequences of statements are modelled once: [x1], [x2] are the factors with the same number
    of rows, [y1], [y2] are the ones that are put below each other; the first belongs to the target,
    the second to the source. *)

(** Library/harith.c:1654-1662 and 1766-1774: [b = (x1 x2)] *)
Definition beside (n k1 : nat) (x1 : mat) (k2 : nat) (x2 : mat) : prog K mat :=
  b <- init_amatrix n (k1 + k2) ;;
  b1 <- init_sub_amatrix b n 0 k1 0 ;;
  copy_amatrix false x1 b1 ;;;
  uninit_amatrix b1 ;;;
  b1 <- init_sub_amatrix b n 0 k2 k1 ;;
  copy_amatrix false x2 b1 ;;;
  uninit_amatrix b1 ;;;
  Ret b.

(** Library/harith.c:1665-1669, 1672-1676, 1777-1781 and 1784-1788 *)
Definition qr_copy (y : mat) (k : nat) : prog K (mat * vec) :=
  a <- init_amatrix (mrows y) k ;;
  copy_amatrix false y a ;;;
  tau <- init_avector (Nat.min (mrows y) k) ;;
  tau <- qrdecomp_amatrix O a tau ;;
  Ret (a, tau).

(** Library/harith.c:1682-1691, 1694-1703, 1794-1803 and 1806-1815: columns [boff], ... of [b]
    times [R^*] are stored in the columns [coff], ... of [c] *)
Definition times_r (n : nat) (a b : mat) (boff : nat) (c : mat) (coff : nat) : prog K unit :=
  let kr := Nat.min (mrows a) (mcols a) in
  b1 <- init_sub_amatrix b n 0 (mcols a) boff ;;
  ar <- init_sub_amatrix a kr 0 (mcols a) 0 ;;
  triangulareval_amatrix false false false ar true b1 ;;;
  uninit_amatrix ar ;;;
  uninit_amatrix b1 ;;;
  b1 <- init_sub_amatrix b n 0 kr boff ;;
  c1 <- init_sub_amatrix c n 0 kr coff ;;
  copy_amatrix false b1 c1 ;;;
  uninit_amatrix c1 ;;;
  uninit_amatrix b1.

(** Library/harith.c:1654-1713 and 1766-1825 *)
Definition merge_svd (n k1 : nat) (x1 y1 : mat) (k2 : nat) (x2 y2 : mat) : prog K (mat * vec * (mat * vec) * mat * (mat * mat * vec)) :=
  b <- beside n k1 x1 k2 x2 ;;
  p1 <- qr_copy y1 k1 ;;
  p2 <- qr_copy y2 k2 ;;
  let kr1 := Nat.min (mrows y1) k1 in
  let kr2 := Nat.min (mrows y2) k2 in
  c <- init_amatrix n (kr1 + kr2) ;;
  times_r n (fst p1) b 0 c 0 ;;;
  times_r n (fst p2) b k1 c kr1 ;;;
  uninit_amatrix b ;;;
  s <- svd_of svd c ;;
  Ret (p1, p2, c, s).

(** Library/harith.c:1729-1737 and 1841-1849, without the release of [vt]: part of the right singular vectors *)
Definition copy_v (knew kr : nat) (vt : mat) (voff : nat) (y : mat) (yoff : nat) : prog K unit :=
  vt1 <- init_sub_amatrix vt knew 0 kr voff ;;
  v1 <- init_sub_amatrix y kr yoff knew 0 ;;
  copy_amatrix true vt1 v1 ;;;
  uninit_amatrix v1 ;;;
  uninit_amatrix vt1.
(** Library/harith.c:1742-1748 and 1854-1860 *)
Definition apply_q (a : mat) (tau : vec) (y : mat) (yoff knew : nat) : prog K unit :=
  v1 <- init_sub_amatrix y (mrows a) yoff knew 0 ;;
  qreval_amatrix false a tau v1 ;;;
  uninit_amatrix v1.

(** Library/harith.c:1720-1760 and 1832-1872: the new factors [x = U Sigma] and [y] *)
Definition merge_fin (n knew : nat) (p1 p2 : mat * vec) (c u vt : mat) (sigma : vec) (x y : mat) : prog K unit :=
  let kr1 := Nat.min (mrows (fst p1)) (mcols (fst p1)) in
  let kr2 := Nat.min (mrows (fst p2)) (mcols (fst p2)) in
  u1 <- init_sub_amatrix u n 0 knew 0 ;;
  copy_amatrix false u1 x ;;;
  uninit_amatrix u1 ;;;
  uninit_amatrix u ;;;
  clear_amatrix y ;;;
  copy_v knew kr1 vt 0 y 0 ;;;
  copy_v knew kr2 vt kr1 y (mrows (fst p1)) ;;;
  uninit_amatrix vt ;;;
  apply_q (fst p1) (snd p1) y 0 knew ;;;
  apply_q (fst p2) (snd p2) y (mrows (fst p1)) knew ;;;
  uninit_avector (snd p2) ;;;
  uninit_amatrix (fst p2) ;;;
  uninit_avector (snd p1) ;;;
  uninit_amatrix (fst p1) ;;;
  diageval_realavector_amatrix f1 true sigma true x ;;;
  uninit_avector sigma ;;;
  uninit_amatrix c.

(** Library/harith.c:1628-1886 [merge_aq_rkmatrix] and Library/harith.c:1888-1893 [merge_rkmatrix] *)
Definition merge_rkmatrix (colmerge : bool) (src trg : rkm) : prog K rkm :=
  if colmerge then
    passert (mrows (rk_B src) =? mrows (rk_B trg)) ;;;
    let cols := mrows (rk_B trg) in
    s <- merge_svd cols (rk_k trg) (rk_B trg) (rk_A trg) (rk_k src) (rk_B src) (rk_A src) ;;
    let '(p1, p2, c, (u, vt, sigma)) := s in
    knew <- rank sigma ;;
    trg <- resize_rkmatrix trg (mrows (rk_A trg) + mrows (rk_A src)) cols knew ;;
    merge_fin cols knew p1 p2 c u vt sigma (rk_B trg) (rk_A trg) ;;;
    Ret trg
  else
    passert (mrows (rk_A src) =? mrows (rk_A trg)) ;;;
    let rows := mrows (rk_A src) in
    s <- merge_svd rows (rk_k trg) (rk_A trg) (rk_B trg) (rk_k src) (rk_A src) (rk_B src) ;;
    let '(p1, p2, c, (u, vt, sigma)) := s in
    knew <- rank sigma ;;
    trg <- resize_rkmatrix trg rows (mrows (rk_B trg) + mrows (rk_B src)) knew ;;
    merge_fin rows knew p1 p2 c u vt sigma (rk_A trg) (rk_B trg) ;;;
    Ret trg.
End Merge.

Section Hadd.
Context {K : fops} {G : ofops} (O : qops K).
Context (svd : mat -> vec -> mat -> mat -> prog K unit) (rank : vec -> prog K nat).
Local Notation hmx := (hmatrix G).

(** [assert(s->son[k]->r != 0)] and the low-rank matrix *)
Definition son_r (son : option (list hmx)) (k : nat) : prog K rkm :=
  s <- sget son k ;;
  match hm_r s with Some r => Ret r | None => Fail EAssert end.

(** [init_rkmatrix] and [copy_rkmatrix] of the same matrix (Library/harith.c:1923-1924, 1939-1940
    and 1953-1954) *)
Definition dup_rkmatrix (s1 : rkm) : prog K rkm :=
  r1 <- init_rkmatrix (mrows (rk_A s1)) (mrows (rk_B s1)) (rk_k s1) ;;
  copy_rkmatrix false s1 r1.

(** Library/harith.c:1899-1963 [merge_hmatrix_rkmatrix] *)
Definition merge_hmatrix_rkmatrix (s : hmx) : prog K rkm :=
  let rsons := hm_rsons s in
  let csons := hm_csons s in
  let son := hm_son s in
  if 1 <? rsons then
    if 1 <? csons then
      r <- init_rkmatrix (hrows s) 0 0 ;;
      forS 0 csons (fun j r =>
        s1 <- son_r son (j * rsons) ;;
        r1 <- dup_rkmatrix s1 ;;
        r1 <- forS 1 (rsons - 1) (fun i r1 =>
          s1 <- son_r son (i + j * rsons) ;;
          merge_rkmatrix O svd rank true s1 r1) r1 ;;
        r <- merge_rkmatrix O svd rank false r1 r ;;
        uninit_rkmatrix r1 ;;;
        Ret r) r
    else
      s1 <- son_r son 0 ;;
      r <- dup_rkmatrix s1 ;;
      forS 1 (rsons - 1) (fun i r =>
        s1 <- son_r son i ;;
        merge_rkmatrix O svd rank true s1 r) r
  else
    s1 <- son_r son 0 ;;
    r <- dup_rkmatrix s1 ;;
    forS 1 (csons - 1) (fun j r =>
      s1 <- son_r son j ;;
      merge_rkmatrix O svd rank false s1 r) r.

(** ** Splitting

    In the code the four cases (both directions, rows only, columns only, none) are written out.
    Here, a direction that is not split has the cluster itself as its only part; the assertion for
    the sum of the sizes is trivial in this case. *)
Definition part_sons (split : bool) (c : cptr G) : nat := if split && (0 <? cp_sons c) then cp_sons c else 1.
Definition part_son (split : bool) (c : cptr G) (i : nat) : prog K (cptr G) :=
  if split && (0 <? cp_sons c) then lift (cp_son c i) else Ret c.

Definition split_with (rc cc : cptr G) (rsplit csplit : bool) (leaf : cptr G -> nat -> cptr G -> nat -> prog K hmx) : prog K hmx :=
  let rsons := part_sons rsplit rc in
  let csons := part_sons csplit cc in
  st <- forS 0 csons (fun j (st : list hmx * nat) =>
    let coff := snd st in
    cj <- part_son csplit cc j ;;
    st <- forS 0 rsons (fun i (st : list hmx * nat) =>
      let roff := snd st in
      ri <- part_son rsplit rc i ;;
      s1 <- leaf ri roff cj coff ;;
      Ret (fst st ++ [s1], roff + csz ri)) (fst st, 0) ;;
    passert (snd st =? csz rc) ;;;
    Ret (fst st, coff + csz cj)) ([], 0) ;;
  passert (snd st =? csz cc) ;;;
  update_hmatrix (new_super_hmatrix rc cc rsons csons (fst st)).

(** Library/harith.c:1310-1402 [split_sub_amatrix] *)
Definition split_sub_amatrix (f : mat) (rc cc : cptr G) (rsplit csplit : bool) : prog K hmx :=
  split_with rc cc rsplit csplit (fun ri roff cj coff =>
    f1 <- init_sub_amatrix f (csz ri) roff (csz cj) coff ;;
    Ret (HM ri cj None (Some f1) None 0 0 1)).

(** Library/harith.c:1404-1524 [split_rkmatrix].  If there is nothing to split the code copies [r]
    itself; here the part is all of [r]. *)
Definition split_rkmatrix (r : rkm) (rc cc : cptr G) (rsplit csplit copy : bool) : prog K hmx :=
  split_with rc cc rsplit csplit (fun ri roff cj coff =>
    if copy then
      s1 <- new_rk_hmatrix ri cj (rk_k r) ;;
      r1 <- init_sub_rkmatrix r (csz ri) roff (csz cj) coff ;;
      match hm_r s1 with
      | Some rs => rs <- copy_rkmatrix false r1 rs ;; uninit_rkmatrix r1 ;;; Ret (set_r s1 rs)
      | None => Fail ENull
      end
    else new_rk_hmatrix ri cj 0).

(** Library/hmatrix.c:212-218 [del_hmatrix] with Library/hmatrix.c:39-61 [uninit_hmatrix], for a
    matrix without other references to it or its submatrices *)
Fixpoint del_hmatrix (h : hmx) : prog K unit :=
  match h with
  | HM rc cc r f son rsons csons _ =>
      match son with
      | Some l =>
          let rec := Some (map del_hmatrix l) in
          for_ 0 (rsons * csons) (fun i => go <- sget rec i ;; go)
      | None => Ret tt
      end ;;;
      match f with Some f => uninit_amatrix f | None => Ret tt end ;;;
      match r with Some r => uninit_rkmatrix r | None => Ret tt end
  end.

(** ** Addition *)

(** Library/harith.c:542-590 [add_hmatrix_amatrix] *)
Fixpoint add_hmatrix_amatrix (alpha : K) (atrans : bool) (a : hmx) (b : mat) : prog K unit :=
  match a with
  | HM rc cc r f son rsons csons _ =>
      passert (csz rc =? if atrans then mcols b else mrows b) ;;;
      passert (csz cc =? if atrans then mrows b else mcols b) ;;;
      match f with
      | Some f => add_amatrix alpha atrans f b
      | None =>
      match r with
      | Some r => add_rkmatrix_amatrix alpha atrans r b
      | None =>
          let rec := match son with Some l => Some (map (fun s => (s, add_hmatrix_amatrix alpha atrans s)) l) | None => None end in
          coff <- forS 0 csons (fun j coff =>
            roff <- forS 0 rsons (fun i roff =>
              s <- sget rec (i + j * rsons) ;;
              b1 <- (if atrans then init_sub_amatrix b (hcols (fst s)) coff (hrows (fst s)) roff
                     else init_sub_amatrix b (hrows (fst s)) roff (hcols (fst s)) coff) ;;
              snd s b1 ;;;
              uninit_amatrix b1 ;;;
              si <- sget rec i ;;
              Ret (roff + hrows (fst si))) 0 ;;
            passert (roff =? csz rc) ;;;
            sj <- sget rec (j * rsons) ;;
            Ret (coff + hcols (fst sj))) 0 ;;
          passert (coff =? csz cc)
      end
      end
  end.

(** The loop over the submatrices of the target in [add_amatrix_hmatrix] (Library/harith.c:1018-1040)
    and [add_rkmatrix_hmatrix] (Library/harith.c:1142-1164): [part] provides the part of the matrix
    to be added. *)
Definition addparts {A} (part : nat -> nat -> nat -> nat -> prog K A) (done : A -> prog K unit) (rc cc : cptr G)
    (rec : option (list (hmx * (A -> prog K hmx)))) (rsons csons : nat) : prog K (list hmx) :=
  st <- forS 0 csons (fun j (st : list hmx * nat) =>
    let coff := snd st in
    st <- forS 0 rsons (fun i (st : list hmx * nat) =>
      let roff := snd st in
      b1 <- sget rec (i + j * rsons) ;;
      a1 <- part (hrows (fst b1)) roff (hcols (fst b1)) coff ;;
      b1' <- snd b1 a1 ;;
      done a1 ;;;
      Ret (fst st ++ [b1'], roff + hrows (fst b1))) (fst st, 0) ;;
    passert (snd st =? csz rc) ;;;
    bj <- sget rec (j * rsons) ;;
    Ret (fst st, coff + hcols (fst bj))) ([], 0) ;;
  passert (snd st =? csz cc) ;;;
  Ret (fst st).

(** Library/harith.c:998-1042 [add_amatrix_hmatrix] *)
Fixpoint add_amatrix_hmatrix (alpha : K) (atrans : bool) (b : hmx) (a : mat) : prog K hmx :=
  match b with
  | HM rc cc r f son rsons csons ds =>
      match r with
      | Some r => r <- add_amatrix_rkmatrix O svd rank alpha atrans a r ;; Ret (HM rc cc (Some r) f son rsons csons ds)
      | None =>
      match f with
      | Some f => add_amatrix alpha atrans a f ;;; Ret b
      | None =>
          let rec := match son with Some l => Some (map (fun s => (s, add_amatrix_hmatrix alpha atrans s)) l) | None => None end in
          l <- addparts (init_sub_amatrix a) uninit_amatrix rc cc rec rsons csons ;;
          Ret (HM rc cc r f (Some l) rsons csons ds)
      end
      end
  end.

(** Library/harith.c:1122-1166 [add_rkmatrix_hmatrix] *)
Fixpoint add_rkmatrix_hmatrix (alpha : K) (a : hmx) (r : rkm) : prog K hmx :=
  match a with
  | HM rc cc ra f son rsons csons ds =>
      if rk_k r =? 0 then Ret a else
      match ra with
      | Some ra => ra <- add_rkmatrix O svd rank alpha r ra ;; Ret (HM rc cc (Some ra) f son rsons csons ds)
      | None =>
      match f with
      | Some f => addmul_amatrix alpha false (rk_A r) true (rk_B r) f ;;; Ret a
      | None =>
          let rec := match son with Some l => Some (map (fun s => (s, add_rkmatrix_hmatrix alpha s)) l) | None => None end in
          l <- addparts (init_sub_rkmatrix r) uninit_rkmatrix rc cc rec rsons csons ;;
          Ret (HM rc cc ra f (Some l) rsons csons ds)
      end
      end
  end.

(** [h] with other submatrices *)
Definition set_sons (h : hmx) (l : list hmx) : hmx :=
  match h with HM rc cc r f _ rsons csons ds => HM rc cc r f (Some l) rsons csons ds end.

(** The loop over the submatrices in [add_hmatrix] (Library/harith.c:1261-1266, 1275-1280 and
    1294-1299) *)
Definition addsons (rec : option (list (hmx -> prog K hmx))) (rsons csons : nat) (b : hmx) : prog K hmx :=
  match hm_son b with
  | None => Fail ENull
  | Some l =>
      l <- sonloop rsons csons (fun k (l : list hmx) =>
        go <- sget rec k ;;
        s <- sget (Some l) k ;;
        s <- go s ;;
        Ret (lupd l k s)) l ;;
      Ret (set_sons b l)
  end.

(** Library/harith.c:1235-1304 [add_hmatrix] *)
Fixpoint add_hmatrix (alpha : K) (a b : hmx) : prog K hmx :=
  match a with
  | HM rc cc r f son rsons csons _ =>
      passert (cp_eqb rc (hm_rc b)) ;;;
      passert (cp_eqb cc (hm_cc b)) ;;;
      match r with
      | Some r => add_rkmatrix_hmatrix alpha b r
      | None =>
      match f with
      | Some f => add_amatrix_hmatrix alpha false b f
      | None =>
          let rec := match son with Some l => Some (map (add_hmatrix alpha) l) | None => None end in
          match hm_son b with
          | Some _ =>
              passert (rsons =? hm_rsons b) ;;;
              passert (csons =? hm_csons b) ;;;
              addsons rec rsons csons b
          | None =>
          match hm_r b with
          | Some br =>
              bs <- split_rkmatrix br (hm_rc b) (hm_cc b) (negb (rsons =? hm_rsons b)) (negb (csons =? hm_csons b)) false ;;
              bs <- addsons rec rsons csons bs ;;
              rk <- merge_hmatrix_rkmatrix bs ;;
              br <- add_rkmatrix O svd rank f1 rk br ;;
              uninit_rkmatrix rk ;;;
              del_hmatrix bs ;;;
              Ret (set_r b br)
          | None =>
          match hm_f b with
          | Some bf =>
              bs <- split_sub_amatrix bf (hm_rc b) (hm_cc b) (negb (rsons =? hm_rsons b)) (negb (csons =? hm_csons b)) ;;
              bs <- addsons rec rsons csons bs ;;
              del_hmatrix bs ;;;
              Ret b
          | None => Ret b
          end
          end
          end
      end
      end
  end.
End Hadd.
