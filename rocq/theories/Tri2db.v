(** * Construction of triangular meshes (Library/tri2d.c:483-523, 1145-1378)

    Simplifications: see Tri2d.v.  The entries of the linked lists of edges
    are kept in one list in the order of their allocation; a pointer to an
    entry is its position in this list, and an [elist] is the list of the
    pointers met when the [next] fields are followed. *)
From Coq Require Import Arith List Bool.
From Verif Require Import Fld Ord Prog Arr Tri2d.
Import ListNotations.

Section Fix.
  Context {G : ofops}.

  (** The body of the loops of fixnormals_tri2d: Library/tri2d.c:497-521. *)
  Definition fixnormal (m : tri2d G) (k i : nat) (e : arr (nat * nat)) : res (arr (nat * nat)) :=
    let* t := aget (t2_t m) k in
    let ei := tedge t i in
    let* b := aget (t2_eb m) ei in
    if b =? 0 then Ok e
    else
      let* p := aget e ei in
      let* x0 := aget (t2_x m) (fst p) in
      let* x1 := aget (t2_x m) (snd p) in
      let n := ((snd x1 - snd x0)%F, (fst x0 - fst x1)%F) in
      let* q := aget e (tedge t ((i + 1) mod 3)) in
      let* y0 := aget (t2_x m) (fst q) in
      let* y1 := aget (t2_x m) (snd q) in
      let* xi :=
        (if (fst q =? fst p) || (fst q =? snd p) then
           do* rassert (negb (snd q =? fst p) && negb (snd q =? snd p)) in
           Ok ((fst y1 - fst y0)%F, (snd y1 - snd y0)%F)
         else Ok ((fst y0 - fst y1)%F, (snd y0 - snd y1)%F)) in
      if flt (@f0 G) (fst xi * fst n + snd xi * snd n)%F
      then aset e ei (snd p, fst p) else Ok e.

  (** fixnormals_tri2d: Library/tri2d.c:483-523.  Only the edges change. *)
  Definition fixnormals_tri2d (m : tri2d G) : res (tri2d G) :=
    let* e := rfor 0 (t2_triangles m) (fun k e =>
      rfor 0 3 (fun i e => fixnormal m k i e) e) (t2_e m) in
    Ok (T2 (t2_vertices m) (t2_edges m) (t2_triangles m) (t2_x m) e (t2_t m) (t2_xb m) (t2_eb m)).
End Fix.

(** struct _edgeentry, struct _trientry: Library/tri2d.c:1163-1179. *)
Record edgeentry := EE { ee_name : nat; ee_v0 : nat; ee_v1 : nat; ee_neighbours : nat }.
Record trientry := TE { te_name : nat; te_e0 : nat; te_e1 : nat; te_e2 : nat }.

(** struct _tri2dbuilder: Library/tri2d.c:1152-1161. *)
Record builder (K : Type) := TB {
  tb_x : arr (K * K);
  tb_heap : list edgeentry;            (* all edge entries *)
  tb_elist : arr (list nat);
  tb_tlist : list trientry;
  tb_vertices : nat; tb_edges : nat; tb_triangles : nat
}.
Arguments TB {_}. Arguments tb_x {_}. Arguments tb_heap {_}. Arguments tb_elist {_}.
Arguments tb_tlist {_}. Arguments tb_vertices {_}. Arguments tb_edges {_}. Arguments tb_triangles {_}.

Definition hget (h : list edgeentry) (p : nat) : res edgeentry :=
  match nth_error h p with Some e => Ok e | None => Err EBounds end.

Section Builder.
  Context {K : Type}.
  Implicit Types tb : builder K.

  (** new_tri2dbuilder: Library/tri2d.c:1216-1235. *)
  Definition new_tri2dbuilder (vertices : nat) : builder K :=
    TB (anew vertices) [] (aof (repeat [] vertices)) [] vertices 0 0.

  (** The caller fills the array returned by getx_tri2dbuilder
      (Library/tri2d.c:1280-1283) with coordinates. *)
  Definition fill_x (x : list (K * K)) tb : builder K :=
    TB (aof x) (tb_heap tb) (tb_elist tb) (tb_tlist tb) (tb_vertices tb) (tb_edges tb) (tb_triangles tb).

  (** The search loop of find_edgeentry: Library/tri2d.c:1303-1305. *)
  Fixpoint search (h : list edgeentry) (l : list nat) (v1 : nat) : res (option nat) :=
    match l with
    | [] => Ok None
    | p :: l' => let* e := hget h p in if ee_v1 e =? v1 then Ok (Some p) else search h l' v1
    end.

  (** find_edgeentry: Library/tri2d.c:1285-1314. *)
  Definition find_edgeentry tb (v0 v1 : nat) : res (nat * builder K) :=
    do* rassert (v0 <? tb_vertices tb) in
    do* rassert (v1 <? tb_vertices tb) in
    let (v0, v1) := if v1 <? v0 then (v1, v0) else (v0, v1) in
    let* l := aget (tb_elist tb) v0 in
    let* o := search (tb_heap tb) l v1 in
    match o with
    | Some p => Ok (p, tb)
    | None =>
        let p := length (tb_heap tb) in
        let* el := aset (tb_elist tb) v0 (p :: l) in
        Ok (p, TB (tb_x tb) (tb_heap tb ++ [EE (tb_edges tb) v0 v1 0]) el (tb_tlist tb)
                  (tb_vertices tb) (tb_edges tb + 1) (tb_triangles tb))
    end.

  (** [e->neighbours++] in new_trientry: Library/tri2d.c:1209-1211. *)
  Definition bump (h : list edgeentry) (p : nat) : res (list edgeentry) :=
    let* e := hget h p in
    Ok (lupd h p (EE (ee_name e) (ee_v0 e) (ee_v1 e) (ee_neighbours e + 1))).

  (** addtriangle_tri2dbuilder, with new_trientry: Library/tri2d.c:1316-1327
      and 1196-1214. *)
  Definition addtriangle_tri2dbuilder tb (v0 v1 v2 : nat) : res (builder K) :=
    let* (e01, tb) := find_edgeentry tb v0 v1 in
    let* (e12, tb) := find_edgeentry tb v1 v2 in
    let* (e20, tb) := find_edgeentry tb v2 v0 in
    let* h := bump (tb_heap tb) e12 in
    let* h := bump h e20 in
    let* h := bump h e01 in
    Ok (TB (tb_x tb) h (tb_elist tb) (TE (tb_triangles tb) e12 e20 e01 :: tb_tlist tb)
           (tb_vertices tb) (tb_edges tb) (tb_triangles tb + 1)).

  (** buildmesh_tri2dbuilder, triangles: Library/tri2d.c:1344-1349. *)
  Definition build_triangles tb (t : arr (nat * nat * nat)) : res (arr (nat * nat * nat)) :=
    rfold (fun te t =>
      let* e0 := hget (tb_heap tb) (te_e0 te) in
      let* e1 := hget (tb_heap tb) (te_e1 te) in
      let* e2 := hget (tb_heap tb) (te_e2 te) in
      aset t (te_name te) (ee_name e0, ee_name e1, ee_name e2)) (tb_tlist tb) t.

  (** buildmesh_tri2dbuilder, edges: Library/tri2d.c:1351-1366. *)
  Definition bstate := (arr (nat * nat) * arr nat * arr nat)%type.
  Definition build_edge tb (p : nat) (s : bstate) : res bstate :=
    let '(e, eb, xb) := s in
    let* en := hget (tb_heap tb) p in
    let* e := aset e (ee_name en) (ee_v0 en, ee_v1 en) in
    do* rassert ((ee_neighbours en =? 1) || (ee_neighbours en =? 2)) in
    let* eb := aset eb (ee_name en) (b2n (ee_neighbours en =? 1)) in
    if ee_neighbours en =? 1 then
      let* xb := aset xb (ee_v0 en) 1 in
      let* xb := aset xb (ee_v1 en) 1 in
      Ok (e, eb, xb)
    else Ok (e, eb, xb).
  Definition build_edges tb (s : bstate) : res bstate :=
    rfor 0 (tb_vertices tb) (fun i s =>
      let* l := aget (tb_elist tb) i in
      rfold (build_edge tb) l s) s.
End Builder.

(** buildmesh_tri2dbuilder: Library/tri2d.c:1329-1378. *)
Definition buildmesh_tri2dbuilder {G : ofops} (tb : builder G) : res (tri2d G) :=
  let gr := new_tri2d (K := G) (tb_vertices tb) (tb_edges tb) (tb_triangles tb) in
  let* xb := rfor 0 (tb_vertices tb) (fun i xb => aset xb i 0) (t2_xb gr) in
  let* t := build_triangles tb (t2_t gr) in
  let* (e, eb, xb) := build_edges tb (t2_e gr, t2_eb gr, xb) in
  let* x := rfor 0 (tb_vertices tb) (fun i x =>
    let* p := aget (tb_x tb) i in aset x i p) (t2_x gr) in
  fixnormals_tri2d (T2 (tb_vertices tb) (tb_edges tb) (tb_triangles tb) x e t xb eb).

(** The use of a builder: create it, fill in the coordinates, add the
    triangles, build the mesh. *)
Definition build_tri2d {G : ofops} (x : list (G * G)) (tris : list (nat * nat * nat)) : res (tri2d G) :=
  let* tb := rfold (fun t tb => addtriangle_tri2dbuilder tb (fst (fst t)) (snd (fst t)) (snd t)) tris
               (fill_x x (new_tri2dbuilder (length x))) in
  buildmesh_tri2dbuilder tb.
