(** * Block trees

    Library/block.c.  Blocks refer to clusters of the row and the column
    cluster tree.  The code compares such references ([b->son[0]->rc == b->rc]),
    so a reference is modelled by the path from the root of its cluster tree
    together with the cluster found there; references are equal if the paths
    are.  Not modelled: the drawing and visualisation routines. *)
From Coq Require Import Arith Lia List Bool.
From Verif Require Import Fld Ord Prog Arr Cluster.
Import ListNotations.

(** A [pcluster]: the path (last step first) and the cluster. *)
Inductive cptr (K : ofops) := CP (path : list nat) (c : cluster K).
Arguments CP {K}.
Definition cp_path {K : ofops} (p : cptr K) := match p with CP x _ => x end.
Definition cp_c {K : ofops} (p : cptr K) := match p with CP _ x => x end.
Definition cp_eqb {K : ofops} (p q : cptr K) : bool :=
  if list_eq_dec Nat.eq_dec (cp_path p) (cp_path q) then true else false.
(** [p->son[i]] *)
Definition cp_son {K : ofops} (p : cptr K) (i : nat) : res (cptr K) :=
  match nth_error (c_sons (cp_c p)) i with
  | Some s => Ok (CP (i :: cp_path p) s)
  | None => Err EBounds
  end.
Definition cp_sons {K : ofops} (p : cptr K) : nat := length (c_sons (cp_c p)).

(** struct _block, Library/block.h:50-71.  [desc] is not initialised by
    [new_block], the entries of [son] are null. *)
Inductive block (K : ofops) :=
| Blk (rc cc : cptr K) (a : bool) (rsons csons : nat) (son : list (option (block K))) (desc : option nat).
Arguments Blk {K}.
Definition b_rc {K : ofops} (b : block K) := match b with Blk x _ _ _ _ _ _ => x end.
Definition b_cc {K : ofops} (b : block K) := match b with Blk _ x _ _ _ _ _ => x end.
Definition b_a {K : ofops} (b : block K) := match b with Blk _ _ x _ _ _ _ => x end.
Definition b_rsons {K : ofops} (b : block K) := match b with Blk _ _ _ x _ _ _ => x end.
Definition b_csons {K : ofops} (b : block K) := match b with Blk _ _ _ _ x _ _ => x end.
Definition b_son {K : ofops} (b : block K) := match b with Blk _ _ _ _ _ x _ => x end.
Definition b_desc {K : ofops} (b : block K) := match b with Blk _ _ _ _ _ _ x => x end.

(** [l[k]] for an array of pointers that may be null. *)
Definition bget {A} (l : list (option A)) (k : nat) : res A :=
  match nth_error l k with
  | Some (Some x) => Ok x
  | Some None => Err ENull
  | None => Err EBounds
  end.
(** Reading [b->desc]. *)
Definition bdesc {K : ofops} (b : block K) : res nat :=
  match b_desc b with Some d => Ok d | None => Err EUninit end.
(** [b->son[k] = s] *)
Definition set_son {K : ofops} (b : block K) (k : nat) (s : block K) : res (block K) :=
  match b with
  | Blk rc cc a rs cs son ds =>
    if k <? length son then Ok (Blk rc cc a rs cs (lupd son k (Some s)) ds) else Err EBounds
  end.

(** ** Constructors *)
(** new_block, Library/block.c:105-126.  [rsons * csons] is a [uint] product in
    the loop; wrap-around at 2^32 is not modelled. *)
Definition new_block {K : ofops} (rc cc : cptr K) (a : bool) (rsons csons : nat) : block K :=
  Blk rc cc a rsons csons (repeat None (rsons * csons)) None.

(** update_block, Library/block.c:144-160. *)
Definition update_block {K : ofops} (b : block K) : res (block K) :=
  match b with
  | Blk rc cc a rsons csons son _ =>
    let* desc := rfor 0 csons (fun j desc =>
      rfor 0 rsons (fun i desc =>
        let* s := bget son (i + j * rsons) in
        let* d := bdesc s in
        Ok (desc + d)) desc) 1 in
    Ok (Blk rc cc a rsons csons son (Some desc))
  end.

(** build_nonstrict_block, Library/block.c:162-204.  The admissibility condition
    is a parameter.  The test [rc->sons * cc->sons == 0] is a [uint] product;
    wrap-around at 2^32 is not modelled.  [fuel] bounds the recursion depth. *)
Fixpoint build_nonstrict {K : ofops} (admis : cluster K -> cluster K -> res bool) (fuel : nat)
  (rc cc : cptr K) : res (block K) :=
  match fuel with
  | O => Err EFuel
  | S fuel =>
    let* a := admis (cp_c rc) (cp_c cc) in
    let (rsons, csons) :=
      if negb a then
        if cp_sons rc * cp_sons cc =? 0 then (0, 0) else (cp_sons rc, cp_sons cc)
      else (0, 0) in
    let b := new_block rc cc a rsons csons in
    let* b := rfor 0 rsons (fun i b =>
      rfor 0 csons (fun j b =>
        let* r := cp_son rc i in
        let* c := cp_son cc j in
        let* s := build_nonstrict admis fuel r c in
        set_son b (i + j * rsons) s) b) b in
    update_block b
  end.

(** Both lower variants fill the sons of a block with [rsons * csons] sons the
    same way (Library/block.c:239-251 and 368-381): admissible leaves above the
    diagonal, [lower] on it and [full] below.  After the first inner loop the
    variable [i] has the value [j]. *)
Definition fill_lower {K : ofops} (lower full : cptr K -> cptr K -> res (block K)) (rc cc : cptr K)
  (rsons csons : nat) (b : block K) : res (block K) :=
  rfor 0 csons (fun j b =>
    let* b := rfor 0 j (fun i b =>
      let* r := cp_son rc i in
      let* c := cp_son cc j in
      let* s := update_block (new_block r c true 0 0) in
      set_son b (i + j * rsons) s) b in
    let* b :=
      (let* r := cp_son rc j in
       let* c := cp_son cc j in
       let* s := lower r c in
       set_son b (j + j * rsons) s) in
    rfor (j + 1) (rsons - (j + 1)) (fun i b =>
      let* r := cp_son rc i in
      let* c := cp_son cc j in
      let* s := full r c in
      set_son b (i + j * rsons) s) b) b.

(** build_nonstrict_lower_block, Library/block.c:206-255.  In the code the leaf
    is stored first and updated in place. *)
Fixpoint build_nonstrict_lower {K : ofops} (admis : cluster K -> cluster K -> res bool) (fuel : nat)
  (rc cc : cptr K) : res (block K) :=
  match fuel with
  | O => Err EFuel
  | S fuel =>
    let* a := admis (cp_c rc) (cp_c cc) in
    let (rsons, csons) :=
      if negb a then
        if cp_sons rc * cp_sons cc =? 0 then (0, 0) else (cp_sons rc, cp_sons cc)
      else (0, 0) in
    let b := new_block rc cc a rsons csons in
    let* b := fill_lower (build_nonstrict_lower admis fuel) (build_nonstrict admis fuel) rc cc rsons csons b in
    update_block b
  end.

(** build_strict_block, Library/block.c:257-321. *)
Fixpoint build_strict {K : ofops} (admis : cluster K -> cluster K -> res bool) (fuel : nat)
  (rc cc : cptr K) : res (block K) :=
  match fuel with
  | O => Err EFuel
  | S fuel =>
    let* a := admis (cp_c rc) (cp_c cc) in
    let* b :=
      if negb a then
        if cp_sons rc =? 0 then
          if cp_sons cc =? 0 then Ok (new_block rc cc a 0 0)
          else
            let csons := cp_sons cc in
            rfor 0 csons (fun j b =>
              let* c := cp_son cc j in
              let* s := build_strict admis fuel rc c in
              set_son b j s) (new_block rc cc a 1 csons)
        else
          if cp_sons cc =? 0 then
            let rsons := cp_sons rc in
            rfor 0 rsons (fun i b =>
              let* r := cp_son rc i in
              let* s := build_strict admis fuel r cc in
              set_son b i s) (new_block rc cc a rsons 1)
          else
            let rsons := cp_sons rc in
            let csons := cp_sons cc in
            rfor 0 rsons (fun i b =>
              rfor 0 csons (fun j b =>
                let* r := cp_son rc i in
                let* c := cp_son cc j in
                let* s := build_strict admis fuel r c in
                set_son b (i + j * rsons) s) b) (new_block rc cc a rsons csons)
      else Ok (new_block rc cc a 0 0) in
    update_block b
  end.

(** build_strict_lower_block, Library/block.c:323-396. *)
Fixpoint build_strict_lower {K : ofops} (admis : cluster K -> cluster K -> res bool) (fuel : nat)
  (rc cc : cptr K) : res (block K) :=
  match fuel with
  | O => Err EFuel
  | S fuel =>
    let* a := admis (cp_c rc) (cp_c cc) in
    let* b :=
      if negb a then
        if cp_sons rc =? 0 then
          if cp_sons cc =? 0 then Ok (new_block rc cc a 0 0)
          else
            let csons := cp_sons cc in
            rfor 0 csons (fun j b =>
              let* c := cp_son cc j in
              let* s := build_strict admis fuel rc c in
              set_son b j s) (new_block rc cc a 1 csons)
        else
          if cp_sons cc =? 0 then
            let rsons := cp_sons rc in
            rfor 0 rsons (fun i b =>
              let* r := cp_son rc i in
              let* s := build_strict admis fuel r cc in
              set_son b i s) (new_block rc cc a rsons 1)
          else
            let rsons := cp_sons rc in
            let csons := cp_sons cc in
            fill_lower (build_strict_lower admis fuel) (build_strict admis fuel) rc cc rsons csons
              (new_block rc cc a rsons csons)
      else Ok (new_block rc cc a 0 0) in
    update_block b
  end.

(** ** Hierarchical iterators.  A callback gets the block, its number, the
    numbers of its row and column cluster, and the parallelisation depth. *)
Definition bcb (K : ofops) (S : Type) := block K -> nat -> nat -> nat -> nat -> S -> res S.
Definition bcall {K : ofops} {S : Type} (f : option (bcb K S)) b (bname rname cname pardepth : nat) (s : S) : res S :=
  match f with Some f => f b bname rname cname pardepth s | None => Ok s end.

(** The sons of a block together with what a recursive function makes of them. *)
Definition withsons {K : ofops} {A} (f : block K -> A) (l : list (option (block K))) : list (option (block K * A)) :=
  map (fun o => match o with Some b => Some (b, f b) | None => None end) l.

(** iterate_block, Library/block.c:771-810.  [b->son] is null exactly if the
    block has no sons. *)
Fixpoint iterate_block {K : ofops} {S : Type} (pre post : option (bcb K S)) (b : block K)
  (bname rname cname : nat) (s : S) : res S :=
  match b with
  | Blk rc cc _ rsons csons son _ =>
    let recs := map (fun o => match o with Some b1 => Some (b1, iterate_block pre post b1) | None => None end) son in
    let* s := bcall pre b bname rname cname 0 s in
    let* s :=
      (if rsons * csons =? 0 then Ok s else
       let* b0 := bget son 0 in
       let bname1 := bname + 1 in
       let cname1 := if cp_eqb (b_cc b0) cc then cname else cname + 1 in
       let* (bname1, cname1, s) := rfor 0 csons (fun j '(bname1, cname1, s) =>
         let rname1 := if cp_eqb (b_rc b0) rc then rname else rname + 1 in
         let* (bname1, rname1, s) := rfor 0 rsons (fun i '(bname1, rname1, s) =>
           let* (b1, rec) := bget recs (i + j * rsons) in
           let* s := rec bname1 rname1 cname1 s in
           let* d := bdesc b1 in
           let* rd := get_desc (cp_c (b_rc b1)) in
           Ok (bname1 + d, rname1 + rd, s)) (bname1, rname1, s) in
         let* rd := get_desc (cp_c rc) in
         do* rassert (rname1 =? rname + rd) in
         let* bj := bget son (j * rsons) in
         let* cd := get_desc (cp_c (b_cc bj)) in
         Ok (bname1, cname1 + cd, s)) (bname1, cname1, s) in
       let* cd := get_desc (cp_c cc) in
       do* rassert (cname1 =? cname + cd) in
       let* d := bdesc b in
       do* rassert (bname1 =? bname + d) in
       Ok s) in
    bcall post b bname rname cname 0 s
  end.

(** ** Traversal by rows and columns *)
(** struct _blockentry, Library/block.h:313-326.  A list of entries linked by [next] is
    a list here. *)
Inductive bentry (K : ofops) := BE (b : block K) (bname rname cname : nat) (father : option (bentry K)).
Arguments BE {K}.
Definition e_b {K : ofops} (e : bentry K) := match e with BE x _ _ _ _ => x end.
Definition e_bname {K : ofops} (e : bentry K) := match e with BE _ x _ _ _ => x end.
Definition e_rname {K : ofops} (e : bentry K) := match e with BE _ _ x _ _ => x end.
Definition e_cname {K : ofops} (e : bentry K) := match e with BE _ _ _ x _ => x end.
Definition e_father {K : ofops} (e : bentry K) := match e with BE _ _ _ _ x => x end.

(** What a traversal does: calls one after the other, two parts in sequence, or
    a parallel loop.  [#pragma omp parallel for if(pardepth > 0)] is [ploop]. *)
Inductive ptree (A : Type) := Pcalls (l : list A) | Pseq (t1 t2 : ptree A) | Ppar (l : list (ptree A)).
Arguments Pcalls {A}. Arguments Pseq {A}. Arguments Ppar {A}.
Definition ploop {A} (par : bool) (l : list (ptree A)) : ptree A :=
  if par then Ppar l else fold_right Pseq (Pcalls []) l.

Inductive lcall (K : ofops) := LPre (pb : list (bentry K)) (pardepth : nat) | LPost (pb : list (bentry K)) (pardepth : nat).
Arguments LPre {K}. Arguments LPost {K}.

(** addrow, Library/block.c:824-863. *)
Fixpoint addrow {K : ofops} (b : block K) (bname rname cname : nat) (father : option (bentry K))
  (next : list (bentry K)) : res (list (bentry K)) :=
  match b with
  | Blk rc cc _ rsons csons son _ =>
    let recs := map (fun o => match o with Some b1 => Some (b1, addrow b1) | None => None end) son in
    let pbf := BE b bname rname cname father in
    let pb := pbf :: next in
    if rsons * csons =? 0 then Ok pb else
    let* b0 := bget son 0 in
    if cp_eqb (b_rc b0) rc then
      do* rassert (csons =? cp_sons cc) in
      let* (bname1, cname1, pb) := rfor 0 csons (fun j '(bname1, cname1, pb) =>
        let* (_, rec) := bget recs (j * rsons) in
        let* pb := rec bname1 rname cname1 (Some pbf) pb in
        let* bj := bget son j in
        let* d := bdesc bj in
        let* cj := cp_son cc j in
        let* cd := get_desc (cp_c cj) in
        Ok (bname1 + d, cname1 + cd, pb)) (bname + 1, cname + 1, pb) in
      let* d := bdesc b in
      do* rassert (bname1 =? bname + d) in
      let* cd := get_desc (cp_c cc) in
      do* rassert (cname1 =? cname + cd) in
      Ok pb
    else Ok pb
  end.

(** The lists for the sons of a row cluster, Library/block.c:889-939: the part of
    [iterate_rowlist] that does not recurse. *)
Definition row_sons {K : ofops} (rc : cptr K) (rname : nat) (pb : list (bentry K)) :
  res (list nat * list (list (bentry K))) :=
  let rsons := cp_sons rc in
  let* (rnames, rname1) := rfor 0 rsons (fun i '(rnames, rname1) =>
    let* r := cp_son rc i in
    let* d := get_desc (cp_c r) in
    Ok (rnames ++ [rname1], rname1 + d)) ([], rname + 1) in
  let* rd := get_desc (cp_c rc) in
  do* rassert (rname1 =? rname + rd) in
  let* pb1 := rfold (fun pb0 pb1 =>
    let b := e_b pb0 in
    do* rassert (cp_eqb (b_rc b) rc) in
    if b_rsons b * b_csons b =? 0 then Ok pb1 else
    let* b0 := bget (b_son b) 0 in
    if cp_eqb (b_rc b0) rc then Ok pb1 else
    do* rassert (b_rsons b =? rsons) in
    do* rassert (e_rname pb0 =? rname) in
    let cname1 := if cp_eqb (b_cc b0) (b_cc b) then e_cname pb0 else e_cname pb0 + 1 in
    let* (bname1, cname1, pb1) := rfor 0 (b_csons b) (fun j '(bname1, cname1, pb1) =>
      let* (bname1, rname1, pb1) := rfor 0 (b_rsons b) (fun i '(bname1, rname1, pb1) =>
        let* s := bget (b_son b) (i + j * b_rsons b) in
        let* r := cp_son rc i in
        do* rassert (cp_eqb (b_rc s) r) in
        let* pbi := (match nth_error pb1 i with Some x => Ok x | None => Err EBounds end) in
        let* pbi := addrow s bname1 rname1 cname1 (Some pb0) pbi in
        let pb1 := lupd pb1 i pbi in
        let* d := bdesc s in
        let* rd := get_desc (cp_c r) in
        Ok (bname1 + d, rname1 + rd, pb1)) (bname1, rname + 1, pb1) in
      do* rassert (rname1 =? rname + rd) in
      let* s := bget (b_son b) (j * b_rsons b) in
      let* cd := get_desc (cp_c (b_cc s)) in
      Ok (bname1, cname1 + cd, pb1)) (e_bname pb0 + 1, cname1, pb1) in
    let* d := bdesc b in
    do* rassert (bname1 =? e_bname pb0 + d) in
    let* cd := get_desc (cp_c (b_cc b)) in
    do* rassert (cname1 =? e_cname pb0 + cd) in
    Ok pb1) pb (repeat [] rsons) in
  Ok (rnames, pb1).

(** iterate_rowlist, Library/block.c:865-959; recursion on the row cluster,
    whose path is [path].  The result describes the calls of the callbacks. *)
Fixpoint iterate_rowlist {K : ofops} (path : list nat) (rc : cluster K) (rname : nat) (pb : list (bentry K))
  (pardepth : nat) : res (ptree (lcall K)) :=
  match rc with
  | Cl _ _ sons _ _ _ _ _ =>
    match pb with
    | [] => Ok (Pcalls [])
    | _ =>
      let* body :=
        if 0 <? length sons then
          let* (rnames, pb1) := row_sons (CP path rc) rname pb in
          let* l := (fix go l i := match l with
            | [] => Ok []
            | s :: l' =>
              let* rn := (match nth_error rnames i with Some x => Ok x | None => Err EBounds end) in
              let* pbi := (match nth_error pb1 i with Some x => Ok x | None => Err EBounds end) in
              let* t := iterate_rowlist (i :: path) s rn pbi (if 0 <? pardepth then pardepth - 1 else 0) in
              let* ts := go l' (S i) in
              Ok (t :: ts)
            end) sons 0 in
          Ok (ploop (0 <? pardepth) l)
        else Ok (Pcalls []) in
      Ok (Pseq (Pcalls [LPre pb pardepth]) (Pseq body (Pcalls [LPost pb pardepth])))
    end
  end.

(** iterate_rowlist_block, Library/block.c:961-975. *)
Definition iterate_rowlist_block {K : ofops} (b : block K) (bname rname cname pardepth : nat) : res (ptree (lcall K)) :=
  let* pb := addrow b bname rname cname None [] in
  iterate_rowlist (cp_path (b_rc b)) (cp_c (b_rc b)) rname pb pardepth.

(** addcol, Library/block.c:977-1016. *)
Fixpoint addcol {K : ofops} (b : block K) (bname rname cname : nat) (father : option (bentry K))
  (next : list (bentry K)) : res (list (bentry K)) :=
  match b with
  | Blk rc cc _ rsons csons son _ =>
    let recs := map (fun o => match o with Some b1 => Some (b1, addcol b1) | None => None end) son in
    let pbf := BE b bname rname cname father in
    let pb := pbf :: next in
    if rsons * csons =? 0 then Ok pb else
    let* b0 := bget son 0 in
    if cp_eqb (b_cc b0) cc then
      do* rassert (rsons =? cp_sons rc) in
      let* (bname1, rname1, pb) := rfor 0 rsons (fun i '(bname1, rname1, pb) =>
        let* (bi, rec) := bget recs i in
        let* pb := rec bname1 rname1 cname (Some pbf) pb in
        let* d := bdesc bi in
        let* ri := cp_son rc i in
        let* rd := get_desc (cp_c ri) in
        Ok (bname1 + d, rname1 + rd, pb)) (bname + 1, rname + 1, pb) in
      let* d := bdesc b in
      do* rassert (bname1 =? bname + d) in
      let* rd := get_desc (cp_c rc) in
      do* rassert (rname1 =? rname + rd) in
      Ok pb
    else Ok pb
  end.

(** The lists for the sons of a column cluster, Library/block.c:1042-1093. *)
Definition col_sons {K : ofops} (cc : cptr K) (cname : nat) (pb : list (bentry K)) :
  res (list nat * list (list (bentry K))) :=
  let csons := cp_sons cc in
  let* (cnames, cname1) := rfor 0 csons (fun j '(cnames, cname1) =>
    let* c := cp_son cc j in
    let* d := get_desc (cp_c c) in
    Ok (cnames ++ [cname1], cname1 + d)) ([], cname + 1) in
  let* cd := get_desc (cp_c cc) in
  do* rassert (cname1 =? cname + cd) in
  let* pb1 := rfold (fun pb0 pb1 =>
    let b := e_b pb0 in
    do* rassert (cp_eqb (b_cc b) cc) in
    if b_rsons b * b_csons b =? 0 then Ok pb1 else
    let* b0 := bget (b_son b) 0 in
    if cp_eqb (b_cc b0) cc then Ok pb1 else
    do* rassert (b_csons b =? csons) in
    do* rassert (e_cname pb0 =? cname) in
    let* (bname1, cname1, pb1) := rfor 0 (b_csons b) (fun j '(bname1, cname1, pb1) =>
      let rname1 := if cp_eqb (b_rc b0) (b_rc b) then e_rname pb0 else e_rname pb0 + 1 in
      let* (bname1, rname1, pb1) := rfor 0 (b_rsons b) (fun i '(bname1, rname1, pb1) =>
        let* s := bget (b_son b) (i + j * b_rsons b) in
        let* c := cp_son cc j in
        do* rassert (cp_eqb (b_cc s) c) in
        let* pbj := (match nth_error pb1 j with Some x => Ok x | None => Err EBounds end) in
        let* pbj := addcol s bname1 rname1 cname1 (Some pb0) pbj in
        let pb1 := lupd pb1 j pbj in
        let* d := bdesc s in
        let* rd := get_desc (cp_c (b_rc s)) in
        Ok (bname1 + d, rname1 + rd, pb1)) (bname1, rname1, pb1) in
      let* rd := get_desc (cp_c (b_rc b)) in
      do* rassert (rname1 =? e_rname pb0 + rd) in
      let* s := bget (b_son b) (j * b_rsons b) in
      let* cd := get_desc (cp_c (b_cc s)) in
      Ok (bname1, cname1 + cd, pb1)) (e_bname pb0 + 1, cname + 1, pb1) in
    let* d := bdesc b in
    do* rassert (bname1 =? e_bname pb0 + d) in
    let* cd := get_desc (cp_c (b_cc b)) in
    do* rassert (cname1 =? cname + cd) in
    Ok pb1) pb (repeat [] csons) in
  Ok (cnames, pb1).

(** iterate_collist, Library/block.c:1018-1113. *)
Fixpoint iterate_collist {K : ofops} (path : list nat) (cc : cluster K) (cname : nat) (pb : list (bentry K))
  (pardepth : nat) : res (ptree (lcall K)) :=
  match cc with
  | Cl _ _ sons _ _ _ _ _ =>
    match pb with
    | [] => Ok (Pcalls [])
    | _ =>
      let* body :=
        if 0 <? length sons then
          let* (cnames, pb1) := col_sons (CP path cc) cname pb in
          let* l := (fix go l i := match l with
            | [] => Ok []
            | s :: l' =>
              let* cn := (match nth_error cnames i with Some x => Ok x | None => Err EBounds end) in
              let* pbi := (match nth_error pb1 i with Some x => Ok x | None => Err EBounds end) in
              let* t := iterate_collist (i :: path) s cn pbi (if 0 <? pardepth then pardepth - 1 else 0) in
              let* ts := go l' (S i) in
              Ok (t :: ts)
            end) sons 0 in
          Ok (ploop (0 <? pardepth) l)
        else Ok (Pcalls []) in
      Ok (Pseq (Pcalls [LPre pb pardepth]) (Pseq body (Pcalls [LPost pb pardepth])))
    end
  end.

(** iterate_collist_block, Library/block.c:1115-1129. *)
Definition iterate_collist_block {K : ofops} (b : block K) (bname rname cname pardepth : nat) : res (ptree (lcall K)) :=
  let* pb := addcol b bname rname cname None [] in
  iterate_collist (cp_path (b_cc b)) (cp_c (b_cc b)) cname pb pardepth.

(** A call of the [pre] or [post] function of [iterate_byrow_block] and
    [iterate_bycol_block]. *)
Inductive blcall (K : ofops) :=
| BPre (b : block K) (bname rname cname pardepth : nat)
| BPost (b : block K) (bname rname cname pardepth : nat).
Arguments BPre {K}. Arguments BPost {K}.

(** call_reversed_blockentry, Library/block.c:1139-1149. *)
Fixpoint call_reversed {K : ofops} (pb : list (bentry K)) (pardepth : nat) : list (blcall K) :=
  match pb with
  | [] => []
  | e :: next => call_reversed next pardepth ++ [BPre (e_b e) (e_bname e) (e_rname e) (e_cname e) pardepth]
  end.
(** call_inorder_blockentry, Library/block.c:1160-1170. *)
Fixpoint call_inorder {K : ofops} (pb : list (bentry K)) (pardepth : nat) : list (blcall K) :=
  match pb with
  | [] => []
  | e :: next => BPost (e_b e) (e_bname e) (e_rname e) (e_cname e) pardepth :: call_inorder next pardepth
  end.
(** pre_blocklist and post_blocklist, Library/block.c:1151-1158 and 1172-1179. *)
Definition blocklist {K : ofops} (c : lcall K) : list (blcall K) :=
  match c with LPre pb d => call_reversed pb d | LPost pb d => call_inorder pb d end.

(** The calls made by the callbacks of a traversal. *)
Fixpoint pbind {A B} (f : A -> list B) (t : ptree A) : ptree B :=
  match t with
  | Pcalls l => Pcalls (flat_map f l)
  | Pseq t1 t2 => Pseq (pbind f t1) (pbind f t2)
  | Ppar l => Ppar (map (pbind f) l)
  end.

(** iterate_byrow_block, Library/block.c:1181-1203. *)
Definition iterate_byrow_block {K : ofops} (b : block K) (bname rname cname pardepth : nat) : res (ptree (blcall K)) :=
  let* pb := addrow b bname rname cname None [] in
  let* t := iterate_rowlist (cp_path (b_rc b)) (cp_c (b_rc b)) rname pb pardepth in
  Ok (pbind blocklist t).

(** iterate_bycol_block, Library/block.c:1205-1227. *)
Definition iterate_bycol_block {K : ofops} (b : block K) (bname rname cname pardepth : nat) : res (ptree (blcall K)) :=
  let* pb := addcol b bname rname cname None [] in
  let* t := iterate_collist (cp_path (b_cc b)) (cp_c (b_cc b)) cname pb pardepth in
  Ok (pbind blocklist t).

(** ** Enumeration *)
(** enumerate, Library/block.c:1233-1249. *)
Fixpoint benumerate {K : ofops} (b : block K) (bname : nat) (bn : arr (block K)) : res (arr (block K)) :=
  match b with
  | Blk _ _ _ rsons csons son _ =>
    let recs := map (fun o => match o with Some b1 => Some (b1, benumerate b1) | None => None end) son in
    let* bn := aset bn bname b in
    let* (bname1, bn) := rfor 0 csons (fun j st => rfor 0 rsons (fun i '(bname1, bn) =>
      let* (b1, rec) := bget recs (i + j * rsons) in
      let* bn := rec bname1 bn in
      let* d := bdesc b1 in
      Ok (bname1 + d, bn)) st) (bname + 1, bn) in
    let* d := bdesc b in
    do* rassert (bname1 =? bname + d) in
    Ok bn
  end.

(** enumerate_block, Library/block.c:1251-1261. *)
Definition enumerate_block {K : ofops} (b : block K) : res (arr (block K)) :=
  let* d := bdesc b in
  benumerate b 0 (anew d).

(** enumerate_level, Library/block.c:1263-1279. *)
Fixpoint benumerate_level {K : ofops} (b : block K) (bname : nat) (bln : arr nat) (p : nat) : res (arr nat) :=
  match b with
  | Blk _ _ _ rsons csons son _ =>
    let recs := map (fun o => match o with Some b1 => Some (b1, benumerate_level b1) | None => None end) son in
    let* bln := aset bln bname (p + 1) in
    let* (bname1, bln) := rfor 0 csons (fun j st => rfor 0 rsons (fun i '(bname1, bln) =>
      let* (b1, rec) := bget recs (i + j * rsons) in
      let* bln := rec bname1 bln (p + 1) in
      let* d := bdesc b1 in
      Ok (bname1 + d, bln)) st) (bname + 1, bln) in
    let* d := bdesc b in
    do* rassert (bname1 =? bname + d) in
    Ok bln
  end.

(** enumerate_level_block, Library/block.c:1281-1291. *)
Definition enumerate_level_block {K : ofops} (b : block K) : res (arr nat) :=
  let* d := bdesc b in
  benumerate_level b 0 (anew d) 0.

(** getdepth_block, Library/block.c:1293-1313. *)
Fixpoint getdepth_block {K : ofops} (b : block K) : res nat :=
  match b with
  | Blk _ _ _ rsons csons son _ =>
    let recs := map (fun o => match o with Some b1 => Some (b1, getdepth_block b1) | None => None end) son in
    if rsons * csons =? 0 then Ok 0 else
    let* p := rfor 0 csons (fun j p => rfor 0 rsons (fun i p =>
      let* (_, rec) := bget recs (i + j * rsons) in
      let* q := rec in
      Ok (Nat.max p q)) p) 0 in
    Ok (p + 1)
  end.

(** pre_compute_csp_block, Library/block.c:1315-1332. *)
Definition pre_compute_csp {K : ofops} : bcb K (arr nat * arr nat) :=
  fun b bname rname cname pardepth '(row, col) =>
    let* x := aget row rname in
    let* row := aset row rname (x + 1) in
    let* y := aget col cname in
    let* col := aset col cname (y + 1) in
    Ok (row, col).

(** compute_csp_block, Library/block.c:1334-1364. *)
Definition compute_csp_block {K : ofops} (b : block K) : res nat :=
  let* rd := get_desc (cp_c (b_rc b)) in
  let* cd := get_desc (cp_c (b_cc b)) in
  let* row := rfor 0 rd (fun i row => aset row i 0) (anew rd) in
  let* col := rfor 0 cd (fun i col => aset col i 0) (anew cd) in
  let* (row, col) := iterate_block (Some pre_compute_csp) None b 0 0 0 (row, col) in
  let* csp := rfor 0 rd (fun i csp =>
    let* x := aget row i in Ok (if csp <? x then x else csp)) 0 in
  rfor 0 cd (fun i csp =>
    let* x := aget col i in Ok (if csp <? x then x else csp)) csp.
