(** * Text files with H-matrices, Library/hmatrix.c:1777-2337

    A file is the list of its characters.  "%u" prints a number in decimal notation.  How a field
    value is printed and scanned by the C library is a parameter [ftext]: [ft_print x] is the result
    of printf for one value, [ft_scan line] is the number of converted fields and the value returned
    by sscanf.  Simplifications: numbers read by "%u" have no sign and do not overflow; the row and
    column index arrays created in lines 1946-1957 are [0, 1, 2, ...], so that an index pointer is a
    number; error messages and line numbers are left out; the recursion depth is limited by a number
    [fuel]. *)
From Coq Require Import Decimal DecimalString DecimalNat Ascii String Arith Lia Bool List.
From Verif Require Import Fld Ord Prog Arr View Cluster Block Amatrix Rkmatrix Hmatrix.
Import ListNotations.

Notation text := (list ascii).
Definition str (s : string) : text := list_ascii_of_string s.
Definition nl : ascii := "010"%char.

(** fprintf(out, "%u", n) *)
Definition printu (n : nat) : text := str (NilEmpty.string_of_uint (Nat.to_uint n)).

(** fgets(buf, n + 1, in): at most [n] characters up to and including a newline; [None] at the end
    of the file. *)
Fixpoint takeline (n : nat) (s : text) : text * text :=
  match n, s with
  | 0, _ => ([], s)
  | _, [] => ([], [])
  | S n', c :: s' => if Ascii.eqb c nl then ([c], s') else let (l, r) := takeline n' s' in (c :: l, r)
  end.
Definition fgets (n : nat) (s : text) : option (text * text) :=
  match s with [] => None | _ => Some (takeline n s) end.

(** isspace, isdigit *)
Definition isspace (c : ascii) : bool := let n := nat_of_ascii c in (n =? 32) || ((9 <=? n) && (n <=? 13)).
Definition digit (c : ascii) : option nat :=
  let n := nat_of_ascii c in if (48 <=? n) && (n <=? 57) then Some (n - 48) else None.
Fixpoint skipws (s : text) : text := match s with c :: s' => if isspace c then skipws s' else s | [] => [] end.
(** The digits of a number *)
Fixpoint digits (acc : nat) (s : text) : nat :=
  match s with
  | c :: s' => match digit c with Some d => digits (d + 10 * acc) s' | None => acc end
  | [] => acc
  end.
Definition scan_uint (s : text) : option nat :=
  match s with c :: _ => match digit c with Some _ => Some (digits 0 s) | None => None end | [] => None end.

(** sscanf(line, fmt, &v) for a format with one "%u" at the end; [Some v] if one field is converted.
    A space in the format matches any number of white space characters. *)
Fixpoint sscanf_u (fmt line : text) : option nat :=
  match fmt with
  | [] => None
  | c :: fmt' =>
      if isspace c then sscanf_u fmt' (skipws line)
      else if Ascii.eqb c "%"%char then scan_uint (skipws line)
      else match line with
           | d :: line' => if Ascii.eqb c d then sscanf_u fmt' line' else None
           | [] => None
           end
  end.

Record ftext (K : Type) := FText { ft_print : K -> text; ft_scan : text -> nat * K }.
Arguments ft_print {K}. Arguments ft_scan {K}.

(** A cluster under construction; entries of [son] are null until a son is created. *)
Inductive ptree := PT (size off : nat) (son : list (option ptree)).
Definition p_size (p : ptree) := match p with PT x _ _ => x end.
Definition p_off (p : ptree) := match p with PT _ x _ => x end.
Definition p_son (p : ptree) := match p with PT _ _ x => x end.

Section Hlib.
Context {K : fops} {G : ofops} (ft : ftext K).
Local Notation hmx := (hmatrix G).

(** ** Writing *)

(** The entries of a matrix by columns, Library/hmatrix.c:1813-1819, 1836-1838 *)
Definition write_entries (rows cols : nat) (A : mat) : prog K text :=
  forS 0 cols (fun j out =>
    forS 0 rows (fun i out => x <- mload A i j ;; Ret (out ++ ft_print ft x ++ [nl])) out) [].

(** A line "name = number" *)
Definition uline (name : string) (n : nat) : text := str name ++ printu n ++ [nl].

(** Library/hmatrix.c:1777-1866 [write_hlib_part] *)
Fixpoint write_hlib_part (h : hmx) (roff coff : nat) : prog K text :=
  match h with
  | HM rc cc r f son rsons csons _ =>
      match r with
      | Some r =>
          let rows := mrows (rk_A r) in
          let cols := mrows (rk_B r) in
          passert (csz rc =? rows) ;;;
          passert (csz cc =? cols) ;;;
          passert (mcols (rk_A r) =? rk_k r) ;;;
          passert (mcols (rk_B r) =? rk_k r) ;;;
          a <- write_entries rows (rk_k r) (rk_A r) ;;
          b <- write_entries cols (rk_k r) (rk_B r) ;;
          Ret (uline "Type " 1 ++ uline "row_offset = " roff ++ uline "col_offset = " coff ++
               uline "rows = " rows ++ uline "cols = " cols ++ uline "k = " (rk_k r) ++ uline "kt = " (rk_k r) ++ a ++ b)
      | None =>
      match f with
      | Some f =>
          a <- write_entries (mrows f) (mcols f) f ;;
          Ret (uline "Type " 2 ++ uline "row_offset = " roff ++ uline "col_offset = " coff ++
               uline "rows = " (mrows f) ++ uline "cols = " (mcols f) ++ a)
      | None =>
      match son with
      | None => Fail EAssert
      | Some l =>
          let rec := Some (map (fun s => (s, write_hlib_part s)) l) in
          let out := uline "Type " 3 ++ uline "row_offset = " roff ++ uline "col_offset = " coff ++
                     uline "rows = " (csz rc) ++ uline "cols = " (csz cc) ++
                     uline "block_rows = " rsons ++ uline "block_cols = " csons in
          st <- forS 0 csons (fun j '(out, coff1) =>
            st <- forS 0 rsons (fun i '(out, roff1) =>
              s <- sget rec (i + j * rsons) ;;
              t <- snd s roff1 coff1 ;;
              s <- sget rec i ;;
              Ret (out ++ t, roff1 + hrows (fst s))) (out, roff) ;;
            passert (snd st =? roff + csz rc) ;;;
            s <- sget rec (j * rsons) ;;
            Ret (fst st, coff1 + hcols (fst s))) (out, coff) ;;
          passert (snd st =? coff + csz cc) ;;;
          Ret (fst st)
      end
      end
      end
  end.

(** Library/hmatrix.c:1868-1879 [write_hlib_hmatrix].  The text is everything that is passed to
    fprintf; the code does not close the file. *)
Definition write_hlib_hmatrix (h : hmx) : prog K text :=
  t <- write_hlib_part h 0 0 ;;
  Ret (str "Beginn der Matrix" ++ [nl] ++ t ++ str "Ende der Matrix" ++ [nl]).

(** ** Reading *)

(** [line = fgets(buf, 80, in)] where [line] is used without a test *)
Definition gets (t : text) : prog K (text * text) := match fgets 79 t with Some p => Ret p | None => Fail ENull end.
(** The next line contains a number:
    [line = fgets(buf, 80, in); fields = sscanf(line, fmt, &v); assert(fields == 1);] *)
Definition read_u (fmt : string) (t : text) : prog K (nat * text) :=
  p <- gets t ;;
  match sscanf_u (str fmt) (fst p) with Some v => Ret (v, snd p) | None => Fail EAssert end.

(** Library/hmatrix.c:1985-2001, 2011-2019: read the entries of a matrix by columns. *)
Definition read_entries (rows cols : nat) (A : mat) (t : text) : prog K text :=
  forS 0 cols (fun j t =>
    forS 0 rows (fun i t =>
      p <- gets t ;;
      let (fields, x) := ft_scan ft (fst p) in
      mstore A i j x ;;;
      passert (fields =? 1) ;;;
      Ret (snd p)) t) t.

(** [new_cluster(rows, ridx, 0, 1)] *)
Definition pnew (size off : nat) : ptree := PT size off [].
(** The reference to a cluster that is stored in a block.  The sons of the cluster may be created
    later, they are added by [hfinish]. *)
Definition pref (path : list nat) (p : ptree) : cptr G := CP path (new_cluster (p_size p) (p_off p) [] 1).
(** [if (t->sons == 0) setsons_cluster(t, n); else assert(t->sons == n);] and the resulting array of
    sons; Library/cluster.c:725-737 [setsons_cluster] *)
Definition psons (p : ptree) (n : nat) : prog K (list (option ptree)) :=
  match p_son p with
  | [] => Ret (repeat None n)
  | l => passert (length l =? n) ;;; Ret l
  end.

(** The leaves: Library/hmatrix.c:1967-2020 and, with equal clusters, 2199-2251 *)
Definition read_rk (rc cc : cptr G) (rows cols : nat) (t : text) : prog K (hmx * text) :=
  u <- read_u "k = %u" t ;;
  u <- read_u "kt = %u" (snd u) ;;
  let k := fst u in
  h <- new_rk_hmatrix rc cc k ;;
  match hm_r h with
  | None => Fail ENull
  | Some r =>
      t <- read_entries rows k (rk_A r) (snd u) ;;
      t <- read_entries cols k (rk_B r) t ;;
      Ret (h, t)
  end.
Definition read_full (rc cc : cptr G) (rows cols : nat) (t : text) : prog K (hmx * text) :=
  h <- new_full_hmatrix rc cc ;;
  match hm_f h with
  | None => Fail ENull
  | Some f => t <- read_entries rows cols f t ;; Ret (h, t)
  end.
(** [G1->rc->size] etc. for the result of a recursive call, which may be null *)
Definition have (g : option hmx) : prog K hmx := match g with Some g => Ret g | None => Fail ENull end.

(** Library/hmatrix.c:1881-2086 [read_hlib_part].  The result consists of the matrix (a null pointer
    is [None]), the rest of the file and the row and column clusters. *)
Fixpoint read_hlib_part (fuel : nat) (t : text) (roff coff : nat) (rp cp : list nat) (rc cc : option ptree) (ridx cidx : nat)
  : prog K (option hmx * text * option ptree * option ptree) :=
  match fuel with
  | 0 => Fail EFuel
  | S fuel =>
  match fgets 79 t with
  | None => Ret (None, t, rc, cc)
  | Some (line, t) =>
  match sscanf_u (str "Type %u") line with
  | None => Ret (None, t, rc, cc)
  | Some mtype =>
      u <- read_u "row_offset = %u" t ;;
      let (roff1, t) := u : nat * text in
      u <- read_u "col_offset = %u" t ;;
      let (coff1, t) := u : nat * text in
      passert (roff =? roff1) ;;;
      passert (coff =? coff1) ;;;
      u <- read_u "rows = %u" t ;;
      let (rows, t) := u : nat * text in
      u <- read_u "cols = %u" t ;;
      let (cols, t) := u : nat * text in
      let rc := match rc with Some p => p | None => pnew rows ridx end in
      let cc := match cc with Some p => p | None => pnew cols cidx end in
      match mtype with
      | 1 =>
          g <- read_rk (pref rp rc) (pref cp cc) rows cols t ;;
          h <- update_hmatrix (fst g) ;;
          Ret (Some h, snd g, Some rc, Some cc)
      | 2 =>
          g <- read_full (pref rp rc) (pref cp cc) rows cols t ;;
          h <- update_hmatrix (fst g) ;;
          Ret (Some h, snd g, Some rc, Some cc)
      | 3 =>
          u <- read_u "block_rows = %u" t ;;
          let (rsons, t) := u : nat * text in
          u <- read_u "block_cols = %u" t ;;
          let (csons, t) := u : nat * text in
          rl <- psons rc rsons ;;
          cl <- psons cc csons ;;
          st <- forS 0 csons (fun j '(t, rl, cl, coff1, cidx1, acc) =>
            st <- forS 0 rsons (fun i '(t, rl, cl, roff1, ridx1, acc) =>
              ri <- sget (Some rl) i ;;
              cj <- sget (Some cl) j ;;
              g <- read_hlib_part fuel t roff1 coff1 (i :: rp) (j :: cp) ri cj ridx1 cidx1 ;;
              let '(g, t, ri, cj) := g in
              G1 <- have g ;;
              Ret (t, lupd rl i ri, lupd cl j cj, roff1 + hrows G1, ridx1 + hrows G1, acc ++ [G1])) (t, rl, cl, roff, ridx, acc) ;;
            let '(t, rl, cl, roff1, ridx1, acc) := st in
            passert (roff1 =? roff + rows) ;;;
            G1 <- have (last (map Some acc) None) ;;
            Ret (t, rl, cl, coff1 + hcols G1, cidx1 + hcols G1, acc)) (t, rl, cl, coff, cidx, []) ;;
          let '(t, rl, cl, coff1, cidx1, acc) := st in
          passert (coff1 =? coff + cols) ;;;
          h <- update_hmatrix (new_super_hmatrix (pref rp rc) (pref cp cc) rsons csons acc) ;;
          Ret (Some h, t, Some (PT (p_size rc) (p_off rc) rl), Some (PT (p_size cc) (p_off cc) cl))
      | _ => Fail ENull
      end
  end
  end
  end.

(** The cluster trees after all sons have been created.  (There are no null sons left, see the
    theorems.) *)
Fixpoint fin (p : ptree) : cluster G :=
  match p with
  | PT size off l => new_cluster size off (map (fun q => match q with Some q => fin q | None => new_cluster 0 0 [] 0 end) l) 1
  end.
(** The cluster with a given path from the root *)
Fixpoint sub_cluster (root : cluster G) (path : list nat) : option (cluster G) :=
  match path with
  | [] => Some root
  | i :: path => match sub_cluster root path with Some c => nth_error (c_sons c) i | None => None end
  end.
(** [c] with the final cluster; the last entry of the path identifies the tree *)
Definition cfinish (root : cluster G) (c : cptr G) : cptr G :=
  match sub_cluster root (firstn (length (cp_path c) - 1) (cp_path c)) with
  | Some d => CP (cp_path c) d
  | None => c
  end.
Fixpoint hmapc (fr fc : cptr G -> cptr G) (h : hmx) : hmx :=
  match h with
  | HM rc cc r f son rsons csons ds =>
      HM (fr rc) (fc cc) r f (match son with Some l => Some (map (hmapc fr fc) l) | None => None end) rsons csons ds
  end.

(** Library/hmatrix.c:2088-2115 [read_hlib_hmatrix].  The row and column clusters are roots of new
    trees with the paths [[0]] and [[1]]. *)
Definition read_hlib_hmatrix (t : text) : prog K (option hmx) :=
  match fgets 79 t with
  | None => Fail EAssert
  | Some (_, t) =>
      g <- read_hlib_part (length t) t 0 0 [0] [1] None None 0 0 ;;
      let '(g, t, rc, cc) := g in
      match fgets 79 t with
      | None => Fail EAssert
      | Some _ =>
          Ret (match g, rc, cc with
               | Some h, Some rc, Some cc => Some (hmapc (cfinish (fin rc)) (cfinish (fin cc)) h)
               | _, _, _ => None
               end)
      end
  end.

(** Library/hmatrix.c:2117-2305 [read_hlibsymm_part]: row and column clusters agree.  As in the
    code, off-diagonal blocks are read with the row index pointer for the columns, and
    [update_hmatrix] is not called. *)
Fixpoint read_hlibsymm_part (fuel : nat) (t : text) (roff : nat) (rp : list nat) (rc : option ptree) (ridx : nat)
  : prog K (option hmx * text * option ptree) :=
  match fuel with
  | 0 => Fail EFuel
  | S fuel =>
  match fgets 79 t with
  | None => Ret (None, t, rc)
  | Some (line, t) =>
  match sscanf_u (str "Type %u") line with
  | None => Ret (None, t, rc)
  | Some mtype =>
      u <- read_u "row_offset = %u" t ;;
      let (roff1, t) := u : nat * text in
      u <- read_u "col_offset = %u" t ;;
      let (coff1, t) := u : nat * text in
      passert (roff =? roff1) ;;;
      passert (roff =? coff1) ;;;
      u <- read_u "rows = %u" t ;;
      let (rows, t) := u : nat * text in
      u <- read_u "cols = %u" t ;;
      let (cols, t) := u : nat * text in
      passert (rows =? cols) ;;;
      let rc := match rc with Some p => p | None => pnew rows ridx end in
      match mtype with
      | 1 => g <- read_rk (pref rp rc) (pref rp rc) rows cols t ;; Ret (Some (fst g), snd g, Some rc)
      | 2 => g <- read_full (pref rp rc) (pref rp rc) rows cols t ;; Ret (Some (fst g), snd g, Some rc)
      | 3 =>
          u <- read_u "block_rows = %u" t ;;
          let (rsons, t) := u : nat * text in
          u <- read_u "block_cols = %u" t ;;
          let (csons, t) := u : nat * text in
          passert (rsons =? csons) ;;;
          rl <- psons rc rsons ;;
          st <- forS 0 csons (fun j '(t, rl, coff1, acc) =>
            st <- forS 0 rsons (fun i '(t, rl, roff1, ridx1, acc) =>
              ri <- sget (Some rl) i ;;
              g <- (if i =? j then
                      g <- read_hlibsymm_part fuel t roff1 (i :: rp) ri ridx1 ;;
                      let '(g, t, ri) := g in Ret (g, t, lupd rl i ri)
                    else
                      rj <- sget (Some rl) j ;;
                      g <- read_hlib_part fuel t roff1 coff1 (i :: rp) (j :: rp) ri rj ridx1 ridx1 ;;
                      let '(g, t, ri, rj) := g in Ret (g, t, lupd (lupd rl i ri) j rj)) ;;
              let '(g, t, rl) := g in
              G1 <- have g ;;
              Ret (t, rl, roff1 + hrows G1, ridx1 + hrows G1, acc ++ [G1])) (t, rl, roff, ridx, acc) ;;
            let '(t, rl, roff1, ridx1, acc) := st in
            passert (roff1 =? roff + rows) ;;;
            s <- sget (Some acc) (j * rsons) ;;
            Ret (t, rl, coff1 + hcols s, acc)) (t, rl, roff, []) ;;
          let '(t, rl, coff1, acc) := st in
          passert (coff1 =? roff + cols) ;;;
          Ret (Some (new_super_hmatrix (pref rp rc) (pref rp rc) rsons csons acc), t, Some (PT (p_size rc) (p_off rc) rl))
      | _ => Ret (None, t, Some rc)
      end
  end
  end
  end.

(** Library/hmatrix.c:2307-2337 [read_hlibsymm_hmatrix] *)
Definition read_hlibsymm_hmatrix (t : text) : prog K (option hmx) :=
  match fgets 79 t with
  | None => Fail EAssert
  | Some (_, t) =>
      g <- read_hlibsymm_part (length t) t 0 [0] None 0 ;;
      let '(g, t, rc) := g in
      match fgets 79 t with
      | None => Fail EAssert
      | Some _ =>
          Ret (match g, rc with
               | Some h, Some rc => Some (hmapc (cfinish (fin rc)) (cfinish (fin rc)) h)
               | _, _ => None
               end)
      end
  end.
End Hlib.
