(** * Proofs about the traversal by columns *)
From Coq Require Import Arith Lia List Bool Permutation.
From Verif Require Import Fld Ord Prog Arr Loop Cluster ClusterSpec ClusterP ClusterP4 ClusterP5 Block BlockSpec BlockP BlockP2 BlockP3 BlockP4 BlockP5 BlockP7.
Import ListNotations.

Section Cols.
Context {K : ofops}.
Implicit Types (b x : block K) (p q rc cc r c : cptr K) (e : bentry K).
Variables (rt ct : cluster K) (r0 c0 : nat).
Hypothesis (Dr : desc_ok rt) (Dc : desc_ok ct).
Local Notation full := (full rt ct r0 c0).
Local Notation bnum := (bnum rt ct r0 c0).
Local Notation bnums := (bnums rt ct r0 c0).

(** ** Splitting a block by columns *)
Definition same_col b : bool := match b_son b with Some s :: _ => cp_eqb (b_cc s) (b_cc b) | _ => false end.

Lemma col_cases b : block_tree b ->
  (b_son b = [] /\ b_rsons b = 0 /\ b_csons b = 0) \/
  (same_col b = true /\ b_csons b = 1 /\ b_rsons b = cp_sons (b_rc b) /\ exists l, l <> [] /\ b_son b = map Some l /\
     Forall2 (fun r x => b_rc x = r /\ b_cc x = b_cc b /\ block_tree x) (cp_split (b_rc b)) l) \/
  (same_col b = false /\ c_sons (cp_c (b_cc b)) <> [] /\ b_csons b = cp_sons (b_cc b) /\ exists R cols, splitting (b_rc b) R /\ b_rsons b = length R /\
     b_son b = map Some (concat cols) /\ concat cols <> [] /\
     Forall2 (fun c col => Forall2 (fun r x => b_rc x = r /\ b_cc x = c /\ block_tree x) R col) (cp_split (b_cc b)) cols).
Proof.
  intros T. destruct (block_cases b T) as [(E & E1 & E2)|(R & C & cols & S1 & S2 & NT & E1 & E2 & E & F & Hs & NE)]; [left; auto|right].
  assert (F' : Forall2 (fun c col => Forall2 (fun r x => b_rc x = r /\ b_cc x = c /\ block_tree x) R col) C cols).
  { assert (Ht : forall col x, In col cols -> In x col -> block_tree x) by (intros col x H1 H2; apply (Hs col x H1 H2)). clear - F Ht.
    induction F as [|c col C cols F0 F IH]; constructor.
    - assert (Hx : forall x, In x col -> block_tree x) by (intros x Hx; apply (Ht col x); [left; reflexivity|exact Hx]). clear - F0 Hx.
      induction F0 as [|r x R col [A B] F0 IH]; constructor; [split; [exact A|split; [exact B|apply Hx; left; reflexivity]]|].
      apply IH. intros; apply Hx; right; assumption.
    - apply IH. intros col0 x H1 H2. apply (Ht col0 x); [right; exact H1|exact H2]. }
  clear F. assert (exists c C' r R' x col cols', C = c :: C' /\ R = r :: R' /\ cols = (x :: col) :: cols' /\ b_cc x = c) as (c & C' & r & R' & x & col & cols' & EC & ER & Ecols & Ex).
  { destruct C as [|c C']; [destruct (splitting_ne _ _ S2); reflexivity|]. destruct R as [|r R']; [destruct (splitting_ne _ _ S1); reflexivity|].
    inversion F' as [|? col ? cols' F0 F1]; subst. inversion F0 as [|? x ? col' (A & B & _) F2]; subst. repeat eexists. }
  assert (SC : same_col b = cp_eqb c (b_cc b)) by (unfold same_col; rewrite E, Ecols; cbn; rewrite Ex; reflexivity).
  destruct S2 as [HC|[N HC]].
  - left. rewrite HC in EC. injection EC as <- _. split; [rewrite SC; apply cp_eqb_refl|]. split; [rewrite E2, HC; reflexivity|].
    destruct S1 as [HR|[NR HR]]; [destruct NT; auto|]. split; [rewrite E1, HR; apply cp_split_length|]. exists (concat cols). split; [exact NE|]. split; [exact E|].
    subst C R. inversion F' as [|? col0 ? cols0 F0 F1 EE]. inversion F1. subst. cbn. rewrite app_nil_r. congruence.
  - right. split; [rewrite SC; apply (cp_eqb_split (b_cc b) c 0); rewrite <- HC, EC; reflexivity|]. split; [exact N|]. split; [rewrite E2, HC; apply cp_split_length|].
    exists R, cols. rewrite <- HC. auto.
Qed.

(** Entries of the list for the column cluster [p]. *)
Definition eok p e : Prop := block_tree (e_b e) /\ b_cc (e_b e) = p /\ points_into rt (b_rc (e_b e)) /\ ek e = full (e_bname e) (e_b e).
Definition subs b (n : nat) : list (block K * nat * nat * nat) :=
  if same_col b then [] else bnums (flat_map (ol (fun x => [x])) (b_son b)) (n + 1).
Definition own e := ek e :: subs (e_b e) (e_bname e).

Lemma addcol_ok b : block_tree b -> points_into rt (b_rc b) -> points_into ct (b_cc b) -> forall n f next,
  exists E, addcol b n (r0 + cpnum rt (b_rc b)) (c0 + cpnum ct (b_cc b)) f next = Ok (E ++ next) /\
    Forall (eok (b_cc b)) E /\ Permutation (flat_map own E) (bnum b n).
Proof.
  induction b as [rc cc a rs cs son ds IH] using block_rect'. set (b := Blk rc cc a rs cs son ds) in *.
  intros T P1 P2 n f next. unfold b at 1. cbn [addcol]. fold b.
  set (e0 := BE b n (r0 + cpnum rt (b_rc b)) (c0 + cpnum ct (b_cc b)) f).
  assert (Ok0 : eok (b_cc b) e0) by (split; [exact T|split; [reflexivity|split; [exact P1|reflexivity]]]).
  destruct (col_cases b T) as [(E & E1 & E2)|[(SR & E1 & E2 & l & NE & E & F)|(SR & N & E1 & R & cols & S1 & E2 & E & NE & F)]].
  - change (b_rsons b) with rs in E1. rewrite E1. change (0 * cs =? 0) with true. cbn iota. exists [e0]. split; [reflexivity|]. split; [auto|].
    cbn [flat_map]. rewrite app_nil_r. unfold own, subs. cbn [e_b e_bname e0]. unfold same_col. rewrite E. cbn [flat_map BlockP7.bnums].
    rewrite (bnum_eq rt ct r0 c0 b [] n E). reflexivity.
  - change (b_csons b) with cs in E1. change (b_rsons b) with rs in E2. change (b_son b) with son in E. change (b_rc b) with rc in *. change (b_cc b) with cc in *.
    assert (Ll : length l = rs) by (rewrite E2, <- (cp_split_length rc); symmetry; eapply Forall2_len, F).
    destruct (Nat.eqb_spec (rs * cs) 0) as [Z|_]; [exfalso; rewrite E1 in Z; destruct l; [congruence|cbn in Ll; lia]|].
    unfold same_col in SR. change (b_son b) with son in SR. change (b_cc b) with cc in SR.
    assert (exists b0, bget son 0 = Ok b0 /\ cp_eqb (b_cc b0) cc = true) as (b0 & Eb0 & Eq0).
    { rewrite E in SR |- *. destruct l as [|x l]; [congruence|]. exists x. split; [reflexivity|exact SR]. }
    rewrite Eb0. cbn [rbind]. rewrite Eq0, E2, Nat.eqb_refl. cbn [rassert rbind].
    assert (NumR := numl_split rt rc P1).
    assert (G : forall R' l', Forall2 (fun r x => b_rc x = r /\ b_cc x = cc /\ block_tree x) R' l' -> (forall x, In x l' -> In (Some x) son) ->
      forall m rn pb, numl rt rn R' -> exists E',
      rfold (fun x '(bname1, rname1, pb) =>
         let* pb := addcol x bname1 rname1 (c0 + cpnum ct cc) (Some e0) pb in
         let* d := bdesc x in let* rd := get_desc (cp_c (b_rc x)) in Ok (bname1 + d, rname1 + rd, pb)) l' (m, r0 + rn, pb) =
      Ok (m + length (flat_map bnodes l'), r0 + rn + lnodes R', E' ++ pb) /\ Forall (eok cc) E' /\ Permutation (flat_map own E') (bnums l' m)).
    { intros R' l' F0 Hl. induction F0 as [|r x R' l' (X1 & X2 & X3) F0 IHl]; intros m rn pb NR; cbn [rfold flat_map BlockP7.bnums].
      - exists []. cbn. rewrite !Nat.add_0_r. auto.
      - destruct NR as (NR1 & NR2 & NR3). rewrite <- X2 in P2. rewrite <- X1 in NR1, NR2.
        destruct (IH x (Hl x (or_introl eq_refl)) X3 NR1 P2 m (Some e0) pb) as (E1' & A1 & A2 & A3). rewrite X2 in A1, A2, P2. rewrite NR2 in A1. rewrite A1. cbn [rbind].
        rewrite (block_desc x X3), (points_desc rt (b_rc x) Dr NR1). cbn [rbind]. rewrite <- Nat.add_assoc, X1.
        destruct (IHl (fun y Hy => Hl y (or_intror Hy)) (m + length (bnodes x)) (rn + length (nodes (cp_c r))) (E1' ++ pb) NR3) as (E2' & B1 & B2 & B3).
        exists (E2' ++ E1'). rewrite B1, app_assoc. split; [do 3 f_equal; [|unfold lnodes; cbn [flat_map]]; rewrite app_length; lia|].
        split; [apply Forall_app; auto|]. rewrite flat_map_app, B3, A3. apply Permutation_app_comm. }
    destruct (G _ l F) with (m := n + 1) (rn := cpnum rt rc + 1) (pb := e0 :: next) as (E' & A1 & A2 & A3); [rewrite E; intros; apply in_map; assumption|exact NumR|].
    exists (E' ++ [e0]). rewrite <- app_assoc. cbn [app].
    match goal with |- rbind ?X _ = _ /\ _ => replace X with (Ok (n + 1 + length (flat_map bnodes l), r0 + (cpnum rt rc + 1) + lnodes (cp_split rc), E' ++ e0 :: next)) end.
    + cbn [rbind]. rewrite (block_desc b T). cbn [rbind]. rewrite (bnodes_eq b). change (b_son b) with son. rewrite E, flat_some. cbn [length].
      replace (n + 1 + length (flat_map bnodes l) =? n + S (length (flat_map bnodes l))) with true by (symmetry; apply Nat.eqb_eq; lia). cbn [rassert rbind].
      rewrite (points_desc rt rc Dr P1). cbn [rbind].
      assert (L2 : lnodes (cp_split rc) + 1 = length (nodes (cp_c rc))).
      { unfold lnodes. rewrite (nodes_eq (cp_c rc)), <- (cp_split_map rc). cbn [length]. rewrite !flat_map_concat_map, map_map. lia. }
      replace (_ =? _) with true by (symmetry; apply Nat.eqb_eq; lia). cbn [rassert rbind]. split; [reflexivity|].
      split; [apply Forall_app; auto|]. rewrite flat_map_app, A3. cbn [flat_map]. rewrite app_nil_r. unfold own at 1, subs. cbn [e_b e_bname e0].
      replace (same_col b) with true by (symmetry; exact SR). rewrite (bnum_eq rt ct r0 c0 b l n E). change (ek e0) with (full n b). symmetry. apply Permutation_cons_append.
    + rewrite <- A1. rewrite <- Nat.add_assoc. symmetry. apply rfor_list'; [rewrite Ll; symmetry; exact E2|]. intros j x Hj [[m rn] pb]. cbn [Nat.add]. rewrite E.
      rewrite (bget_recs addcol l j x Hj). cbn [rbind].
      assert (exists r, nth_error (cp_split rc) j = Some r) as [r Hr].
      { apply nth_lt. rewrite (Forall2_len _ _ _ F). apply nth_error_Some. congruence. }
      destruct (Forall2_nth _ _ _ F j r x Hr Hj) as (X1 & X2 & X3). change (b_cc b) with cc.
      destruct (addcol x m rn (c0 + cpnum ct cc) (Some e0) pb) as [pb'|er]; cbn [rbind]; [|reflexivity].
      destruct (bdesc x); cbn [rbind]; [|reflexivity]. rewrite son_split, Hr. cbn [rbind]. rewrite X1. reflexivity.
  - change (b_csons b) with cs in E1. change (b_rsons b) with rs in E2. change (b_son b) with son in E. change (b_rc b) with rc in *. change (b_cc b) with cc in *.
    exists [e0]. assert (NC : cs <> 0) by (rewrite E1; intros Z; apply N, sons0, Z).
    assert (NR : rs <> 0) by (rewrite E2; pose proof (splitting_ne _ _ S1); destruct R; [congruence|discriminate]).
    destruct (Nat.eqb_spec (rs * cs) 0) as [Z|_]; [apply mul0 in Z; tauto|].
    assert (SR' := SR). unfold same_col in SR'. change (b_son b) with son in SR'. change (b_cc b) with cc in SR'.
    assert (exists b0, bget son 0 = Ok b0 /\ cp_eqb (b_cc b0) cc = false) as (b0 & Eb0 & Eq0).
    { rewrite E in SR' |- *. destruct (concat cols) as [|x l]; [congruence|]. exists x. split; [reflexivity|exact SR']. }
    rewrite Eb0. cbn [rbind]. rewrite Eq0. split; [reflexivity|]. split; [auto|]. cbn [flat_map]. rewrite app_nil_r. unfold own, subs. cbn [e_b e_bname e0].
    rewrite SR. change (b_son b) with son. rewrite E, flat_self, (bnum_eq rt ct r0 c0 b (concat cols) n E). reflexivity.
Qed.

(** ** The lists for the sons of a column cluster *)
Definition lists_ok rc (pb1 : list (list (bentry K))) : Prop :=
  Forall2 (fun r l => Forall (eok r) l) (cp_split rc) pb1.

Lemma lists_set rc pb1 i r l : lists_ok rc pb1 -> nth_error (cp_split rc) i = Some r -> Forall (eok r) l -> lists_ok rc (lupd pb1 i l).
Proof.
  unfold lists_ok. generalize (cp_split rc) as R. intros R H. revert i. induction H as [|r0' l0 R pb H0 H IH]; intros [|i] Hi Hl; cbn in *; try discriminate.
  - injection Hi as ->. constructor; assumption.
  - constructor; [assumption|]. apply IH; assumption.
Qed.

Lemma col_names p (cname : nat) : points_into ct p -> exists cnames,
  rfor 0 (cp_sons p) (fun i '(cnames, cname1) =>
    let* r := cp_son p i in let* d := get_desc (cp_c r) in Ok (cnames ++ [cname1], cname1 + d)) ([], cname + 1) =
  Ok (cnames, cname + 1 + lnodes (cp_split p)) /\
  (forall i, i < cp_sons p -> nth_error cnames i = Some (cname + 1 + lnodes (firstn i (cp_split p)))).
Proof.
  intros P. pose proof (numl_split ct p P) as NL.
  assert (G : rok (rfor 0 (cp_sons p) (fun i '(cnames, cname1) =>
    let* r := cp_son p i in let* d := get_desc (cp_c r) in Ok (cnames ++ [cname1], cname1 + d)) ([], cname + 1))
    (fun '(cnames, cname1) => cname1 = cname + 1 + lnodes (cp_split p) /\ length cnames = cp_sons p /\
       forall i, i < cp_sons p -> nth_error cnames i = Some (cname + 1 + lnodes (firstn i (cp_split p))))).
  { apply (rok_for (fun k '(cnames, cname1) => cname1 = cname + 1 + lnodes (firstn k (cp_split p)) /\ length cnames = k /\
       forall i, i < k -> nth_error cnames i = Some (cname + 1 + lnodes (firstn i (cp_split p))))).
    - unfold lnodes. cbn. split; [lia|]. split; [reflexivity|intros; lia].
    - intros k [cnames cname1] Hk (H1 & H2 & H3). destruct (nth_lt (cp_split p) k) as [r Hr]; [rewrite cp_split_length; lia|].
      rewrite son_split, Hr. cbn [rbind]. destruct (numl_nth _ _ _ _ _ NL Hr) as [Pr _]. rewrite (points_desc ct r Dc Pr). cbn [rbind rok].
      rewrite (firstn_snoc _ _ _ Hr), lnodes_snoc. split; [lia|]. split; [rewrite app_length; cbn; lia|]. intros i Hi.
      destruct (Nat.eq_dec i k) as [->|Ni].
      + rewrite nth_error_app2 by lia. rewrite H2, Nat.sub_diag. cbn. congruence.
      + rewrite nth_error_app1 by lia. apply H3. lia.
    - intros [cnames cname1] (H1 & H2 & H3). rewrite firstn_all2 in H1 by (rewrite cp_split_length; lia). auto. }
  apply rok_inv in G as ([cnames cname1] & E & -> & _ & H). exists cnames. auto.
Qed.

Lemma col_sons_ok p pb : points_into ct p -> Forall (eok p) pb -> c_sons (cp_c p) <> [] ->
  rok (col_sons p (c0 + cpnum ct p) pb) (fun '(cnames, pb1) =>
    (forall i c, nth_error (cp_split p) i = Some c -> nth_error cnames i = Some (c0 + cpnum ct c)) /\
    lists_ok p pb1 /\
    Permutation (flat_map own (concat pb1)) (flat_map (fun e => subs (e_b e) (e_bname e)) pb)).
Proof.
  intros P HE HS. unfold col_sons. pose proof (numl_split ct p P) as NL.
  assert (LN : lnodes (cp_split p) + 1 = length (nodes (cp_c p))).
  { unfold lnodes. rewrite (nodes_eq (cp_c p)), <- (cp_split_map p). cbn [length]. rewrite !flat_map_concat_map, map_map. lia. }
  destruct (col_names p (c0 + cpnum ct p) P) as (cnames & En & Hn). rewrite En. cbn [rbind].
  rewrite (points_desc ct p Dc P). cbn [rbind]. replace (_ =? _) with true by (symmetry; apply Nat.eqb_eq; lia). cbn [rassert rbind].
  apply rok_bind. set (step := fun (pb0 : bentry K) (pb1 : list (list (bentry K))) => _).
  assert (Step : forall e, eok p e -> forall pb1, lists_ok p pb1 -> rok (step e pb1) (fun pb2 => lists_ok p pb2 /\
     Permutation (flat_map own (concat pb2)) (subs (e_b e) (e_bname e) ++ flat_map own (concat pb1)))).
  { intros e (Te & Er & Pc & Ek) pb1 L1. unfold step. set (b := e_b e) in *. rewrite Er, cp_eqb_refl. cbn [rassert rbind].
    injection Ek as Ek1 Ek2. fold b in Ek1, Ek2.
    destruct (col_cases b Te) as [(E & E1 & E2)|[(SR & E1 & E2 & l & NE & E & F)|(SR & N & E1 & R & cols & S1 & E2 & E & NE & F)]].
    - rewrite E1. change (0 * b_csons b =? 0) with true. cbn iota. cbn [rok]. split; [exact L1|]. unfold subs. rewrite E. destruct (same_col b); reflexivity.
    - assert (Ll : length l = b_rsons b) by (rewrite E2, <- (cp_split_length (b_rc b)); symmetry; eapply Forall2_len, F).
      destruct (Nat.eqb_spec (b_rsons b * b_csons b) 0) as [Z|_]; [exfalso; rewrite E1 in Z; destruct l; [congruence|cbn in Ll; lia]|].
      assert (SR' := SR). unfold same_col in SR'. rewrite Er in SR'.
      assert (exists b0, bget (b_son b) 0 = Ok b0 /\ cp_eqb (b_cc b0) p = true) as (b0 & Eb0 & Eq0).
      { rewrite E in SR' |- *. destruct l as [|x l]; [congruence|]. exists x. split; [reflexivity|exact SR']. }
      rewrite Eb0. cbn [rbind]. rewrite Eq0. cbn [rok]. split; [exact L1|]. unfold subs. rewrite SR. reflexivity.
    - rewrite Er in *. assert (NC : b_csons b <> 0) by (rewrite E1; intros Z; apply N, sons0, Z).
      assert (NR : b_rsons b <> 0) by (rewrite E2; pose proof (splitting_ne _ _ S1); destruct R; [congruence|discriminate]).
      destruct (Nat.eqb_spec (b_rsons b * b_csons b) 0) as [Z|_]; [apply mul0 in Z; tauto|].
      assert (SR' := SR). unfold same_col in SR'. rewrite Er in SR'.
      assert (exists b0, bget (b_son b) 0 = Ok b0 /\ cp_eqb (b_cc b0) p = false /\ nth_error R 0 = Some (b_rc b0)) as (b0 & Eb0 & Eq0 & HR0).
      { rewrite E in SR' |- *. destruct F as [|c col C cols F0 F]; [destruct NE; reflexivity|]. cbn [concat] in *.
        clear F. destruct R as [|r R]; [destruct (splitting_ne _ _ S1); reflexivity|].
        inversion F0 as [|? x ? col' (X1 & X2 & X3) F1]; subst. cbn in *. exists x. split; [reflexivity|]. split; [exact SR'|reflexivity]. }
      rewrite Eb0. cbn [rbind]. rewrite Eq0, E1, Nat.eqb_refl, Ek2, Nat.eqb_refl. cbn [rassert rbind].
      destruct (splitting_num rt (b_rc b) R S1 Pc) as (d1 & _ & Q1 & N1 & L1' & _).
      set (C := cp_split p) in *. assert (LC : length C = cp_sons p) by apply cp_split_length.
      assert (LCc : length cols = length C) by (symmetry; eapply Forall2_len, F).
      assert (Fl : Forall (fun l => length l = b_rsons b) cols).
      { apply Forall_forall. intros col Hc. destruct (forall2_in _ _ _ _ F Hc) as (c & _ & F'). rewrite E2. symmetry. eapply Forall2_len, F'. }
      apply rok_bind. eapply rok_conseq; [apply (rok_for (fun k '(bname1, cname1, pb2) =>
         bname1 = e_bname e + 1 + length (flat_map bnodes (concat (firstn k cols))) /\ cname1 = c0 + (cpnum ct p + 1) + lnodes (firstn k C) /\
         lists_ok p pb2 /\ Permutation (flat_map own (concat pb2)) (bnums (concat (firstn k cols)) (e_bname e + 1) ++ flat_map own (concat pb1)))
         _ _ _ _ (fun '(bname1, cname1, pb2) =>
         bname1 = e_bname e + 1 + length (flat_map bnodes (concat cols)) /\ cname1 = c0 + (cpnum ct p + 1) + lnodes C /\
         lists_ok p pb2 /\ Permutation (flat_map own (concat pb2)) (bnums (concat cols) (e_bname e + 1) ++ flat_map own (concat pb1))))|].
      + cbn. unfold lnodes. cbn. split; [lia|]. split; [lia|]. auto.
      + intros j [[bname1 cname1] pb2] Hj (H1 & H2 & H3 & H4). destruct (nth_lt cols j) as [col Hcol]; [lia|]. destruct (nth_lt C j) as [c Hc]; [lia|].
        destruct (numl_nth ct _ _ _ _ NL Hc) as [Pcc Ncc]. pose proof (Forall2_nth _ _ _ F j c col Hc Hcol) as F0.
        assert (Lcol : length col = b_rsons b) by (rewrite Forall_forall in Fl; apply Fl; eapply nth_error_In; exact Hcol).
        assert (Hget : forall i x, nth_error col i = Some x -> bget (b_son b) (i + j * b_rsons b) = Ok x).
        { intros i x Hx. rewrite E. apply bget_some. rewrite (nth_concat cols (b_rsons b) j i col Fl Hcol); [exact Hx|]. rewrite <- Lcol. apply nth_error_Some. congruence. }
        rewrite Ek1, (Q1 _ _ HR0).
        apply rok_bind. eapply rok_conseq; [apply (rok_for (fun k '(bname2, rname2, pb3) =>
          bname2 = bname1 + length (flat_map bnodes (firstn k col)) /\ rname2 = r0 + (cpnum rt (b_rc b) + d1) + lnodes (firstn k R) /\
          lists_ok p pb3 /\ Permutation (flat_map own (concat pb3)) (bnums (firstn k col) bname1 ++ flat_map own (concat pb2)))
          _ _ _ _ (fun '(bname2, rname2, pb3) =>
          bname2 = bname1 + length (flat_map bnodes col) /\ rname2 = r0 + (cpnum rt (b_rc b) + d1) + lnodes R /\
          lists_ok p pb3 /\ Permutation (flat_map own (concat pb3)) (bnums col bname1 ++ flat_map own (concat pb2))))|].
        * cbn. unfold lnodes. cbn. split; [lia|]. split; [lia|]. auto.
        * intros i [[bname2 rname2] pb3] Hi (G1 & G2 & G3 & G4). destruct (nth_lt col i) as [x Hx]; [lia|]. destruct (nth_lt R i) as [r Hr]; [lia|].
          destruct (Forall2_nth _ _ _ F0 i r x Hr Hx) as (X1 & X2 & X3). destruct (numl_nth rt _ _ _ _ N1 Hr) as [Prr Nrr].
          rewrite (Hget i x Hx). cbn [rbind]. rewrite son_split. fold C. rewrite Hc. cbn [rbind]. rewrite X2, cp_eqb_refl. cbn [rassert rbind].
          destruct (nth_lt pb3 j) as [pbj Hpbj]; [rewrite <- (Forall2_len _ _ _ G3); fold C; lia|]. rewrite Hpbj. cbn [rbind].
          assert (Er2 : rname2 = r0 + cpnum rt (b_rc x)) by (rewrite X1, Nrr; lia).
          assert (Ec2 : cname1 = c0 + cpnum ct (b_cc x)) by (rewrite X2, Ncc; lia).
          rewrite Er2, Ec2. destruct (addcol_ok x X3 ltac:(rewrite X1; exact Prr) ltac:(rewrite X2; exact Pcc) bname2 (Some e) pbj) as (E' & A1 & A2 & A3).
          rewrite A1. cbn [rbind]. rewrite (block_desc x X3), X1, (points_desc rt r Dr Prr). cbn [rbind rok].
          rewrite (firstn_snoc _ _ _ Hx), (firstn_snoc _ _ _ Hr), lnodes_snoc, flat_map_app, app_length. cbn [flat_map]. rewrite app_nil_r.
          split; [lia|]. split; [rewrite Nrr; lia|]. split.
          -- apply (lists_set p pb3 j c); [exact G3|exact Hc|]. apply Forall_app. rewrite X2 in A2. split; [exact A2|]. exact (Forall2_nth _ _ _ G3 j c pbj Hc Hpbj).
          -- rewrite (flat_map_Permutation own _ _ (concat_lupd pb3 j pbj E' Hpbj)), flat_map_app, A3, G4.
             rewrite bnums_app. cbn [BlockP7.bnums]. rewrite app_nil_r, G1, <- app_assoc. apply Permutation_app_swap_app.
        * intros [[bname2 rname2] pb3] (G1 & G2 & G3 & G4). rewrite firstn_all2 in G1, G4 by lia. rewrite firstn_all2 in G2 by lia. auto.
        * intros [[bname2 rname2] pb3] (G1 & G2 & G3 & G4). subst rname2. rewrite (points_desc rt _ Dr Pc). cbn [rbind].
          replace (_ =? _) with true by (symmetry; apply Nat.eqb_eq; lia). cbn [rassert rbind].
          destruct (nth_lt col 0) as [x Hx]; [lia|]. destruct (nth_lt R 0) as [r Hr]; [lia|]. destruct (Forall2_nth _ _ _ F0 0 r x Hr Hx) as (X1 & X2 & X3).
          pose proof (Hget 0 x Hx) as Hg. cbn [Nat.add] in Hg. rewrite Hg. cbn [rbind]. rewrite X2, (points_desc ct c Dc Pcc). cbn [rbind rok].
          rewrite (firstn_snoc _ _ _ Hcol), (firstn_snoc _ _ _ Hc), lnodes_snoc, concat_app, flat_map_app, app_length. cbn [concat]. rewrite app_nil_r.
          split; [lia|]. split; [lia|]. split; [exact G3|]. rewrite G4, H4, bnums_app, H1, <- app_assoc. apply Permutation_app_swap_app.
      + intros [[bname1 cname1] pb2] (H1 & H2 & H3 & H4). rewrite firstn_all2 in H1, H4 by lia. rewrite firstn_all2 in H2 by lia. auto.
      + intros [[bname1 cname1] pb2] (H1 & H2 & H3 & H4). rewrite (block_desc b Te). cbn [rbind]. rewrite (bnodes_eq b), E, flat_some. cbn [length].
        replace (_ =? _) with true by (symmetry; apply Nat.eqb_eq; lia). cbn [rassert rbind]. rewrite (points_desc ct _ Dc P). cbn [rbind].
        replace (_ =? _) with true by (symmetry; apply Nat.eqb_eq; lia). cbn [rassert rbind rok]. split; [exact H3|].
        unfold subs. rewrite SR, E, flat_self. exact H4. }
  assert (Fold : forall l, Forall (eok p) l -> forall pb1, lists_ok p pb1 -> rok (rfold step l pb1) (fun pb2 => lists_ok p pb2 /\
     Permutation (flat_map own (concat pb2)) (flat_map (fun e => subs (e_b e) (e_bname e)) l ++ flat_map own (concat pb1)))).
  { clearbody step. induction 1 as [|e l He Hl IHl]; intros pb1 L1; cbn [rfold flat_map]; [split; [exact L1|reflexivity]|].
    apply rok_bind. eapply rok_conseq; [apply Step; assumption|]. intros pb2 [L2 Q2]. eapply rok_conseq; [apply IHl; exact L2|].
    intros pb3 [L3 Q3]. split; [exact L3|]. rewrite Q3, Q2, <- app_assoc. apply Permutation_app_swap_app. }
  assert (Empty : forall n, concat (repeat (@nil (bentry K)) n) = []) by (induction n; cbn; auto).
  eapply rok_conseq; [apply Fold; [exact HE|]|].
  - unfold lists_ok. rewrite <- cp_split_length. generalize (cp_split p) as R. clear. induction R; cbn; constructor; auto.
  - intros pb2 [L2 Q2]. cbn [rok]. split; [|split; [exact L2|]].
    + intros i r Hi. destruct (numl_nth ct _ _ _ _ NL Hi) as [_ ->]. rewrite Hn; [f_equal; lia|]. rewrite <- cp_split_length. apply nth_error_Some. congruence.
    + rewrite Q2, Empty. cbn. rewrite app_nil_r. reflexivity.
Qed.

(** ** The traversal *)
Definition cols_apart (c1 c2 : lcall K) : Prop :=
  forall e1 e2, In e1 (lentries c1) -> In e2 (lentries c2) -> apart_cl (cp_c (b_cc (e_b e1))) (cp_c (b_cc (e_b e2))).

Lemma own_cols p pb z : Forall (eok p) pb -> In z (flat_map own pb) -> In (cp_c (b_cc (fst (fst (fst z))))) (nodes (cp_c p)).
Proof.
  intros H Hz. apply in_flat_map in Hz as (e & He & Hz). rewrite Forall_forall in H. destruct (H e He) as (T & <- & _ & _).
  apply bnodes_clusters; [exact T|]. destruct Hz as [<-|Hz]; [apply bnodes_refl|]. unfold subs in Hz. destruct (same_col (e_b e)); [destruct Hz|].
  destruct (bnums_in rt ct r0 c0 _ _ _ Hz) as (x & Hx & Hz'). apply in_flat_map in Hx as ([x'|] & Hx & Hi); [destruct Hi as [<-|[]]|destruct Hi]. apply in_bnodes. right. exists x'. split; assumption.
Qed.

Lemma entries_cols p pb (t : ptree (lcall K)) (c : lcall K) e : Forall (eok p) pb -> Permutation (pres t) (flat_map own pb) -> Permutation (posts t) (flat_map own pb) ->
  In c (pcalls t) -> In e (lentries c) -> In (cp_c (b_cc (e_b e))) (nodes (cp_c p)).
Proof.
  intros H Q1 Q2 Hc He. apply (own_cols p pb (ek e) H). destruct c as [l d|l d]; cbn in He.
  - eapply Permutation_in; [exact Q1|]. apply in_flat_map. exists (LPre l d). split; [exact Hc|]. apply in_map. exact He.
  - eapply Permutation_in; [exact Q2|]. apply in_flat_map. exists (LPost l d). split; [exact Hc|]. apply in_map. exact He.
Qed.

Lemma own_split pb : Permutation (flat_map own pb) (map ek pb ++ flat_map (fun e => subs (e_b e) (e_bname e)) pb).
Proof.
  induction pb as [|e pb IH]; cbn; [reflexivity|]. constructor. rewrite IH. apply Permutation_app_swap_app.
Qed.

Lemma no_subs p pb : Forall (eok p) pb -> c_sons (cp_c p) = [] -> flat_map (fun e => subs (e_b e) (e_bname e)) pb = [].
Proof.
  induction 1 as [|e pb (T & Er & _) H IH]; intros N; cbn; [reflexivity|]. rewrite IH by exact N. rewrite app_nil_r. unfold subs.
  destruct (col_cases (e_b e) T) as [(E & _)|[(SR & _)|(_ & N' & _)]]; [rewrite E; destruct (same_col _); reflexivity|rewrite SR; reflexivity|]. rewrite Er in N'. congruence.
Qed.

Lemma iterate_collist_ok : partition_tree ct -> forall (rc : cluster K) path (pb : list (bentry K)) pd, points_into ct (CP path rc) -> Forall (eok (CP path rc)) pb ->
  exists t : ptree (lcall K), iterate_collist path rc (c0 + cpnum ct (CP path rc)) pb pd = Ok t /\ Permutation (pres t) (flat_map own pb) /\
    Permutation (posts t) (flat_map own pb) /\ par_calls cols_apart t.
Proof.
  intros PT. induction rc as [size off sons dim b1 b2 ds typ IH] using cluster_rect'. set (rc := Cl size off sons dim b1 b2 ds typ) in *.
  intros path pb pd P H. set (p := CP path rc) in *. unfold rc at 1. cbn [iterate_collist]. fold rc. fold p.
  destruct pb as [|e0 pb0] eqn:Epb; [exists (Pcalls []); repeat split; reflexivity|]. rewrite <- Epb in *. clear Epb e0 pb0.
  assert (G : exists body, (if 0 <? length sons then
      let* (cnames, pb1) := col_sons p (c0 + cpnum ct p) pb in
      let* l := (fix go l i := match l with
        | [] => Ok []
        | s :: l' =>
          let* rn := (match nth_error cnames i with Some x => Ok x | None => Err EBounds end) in
          let* pbi := (match nth_error pb1 i with Some x => Ok x | None => Err EBounds end) in
          let* t := iterate_collist (i :: path) s rn pbi (if 0 <? pd then pd - 1 else 0) in
          let* ts := go l' (S i) in
          Ok (t :: ts)
        end) sons 0 in
      Ok (ploop (0 <? pd) l) else Ok (Pcalls [])) = Ok body /\
      Permutation (pres body) (flat_map (fun e => subs (e_b e) (e_bname e)) pb) /\ Permutation (posts body) (flat_map (fun e => subs (e_b e) (e_bname e)) pb) /\ par_calls cols_apart body).
  { destruct (Nat.ltb_spec 0 (length sons)) as [NL|NL].
    2:{ exists (Pcalls []). rewrite (no_subs p pb H) by (apply length_zero_iff_nil; change (c_sons (cp_c p)) with sons; lia). repeat split; reflexivity. }
    - assert (NS : c_sons (cp_c p) <> []) by (change (c_sons (cp_c p)) with sons; intros X; rewrite X in NL; cbn in NL; lia).
      destruct (rok_inv _ _ (col_sons_ok p pb P H NS)) as ([cnames pb1] & -> & Hn & L1 & Q1). cbn [rbind].
      set (pd' := if 0 <? pd then pd - 1 else 0).
      assert (G : forall l k, (forall j, nth_error l j = nth_error sons (k + j)) -> k + length l = length sons ->
         exists ts, (fix go l i := match l with
        | [] => Ok []
        | s :: l' =>
          let* rn := (match nth_error cnames i with Some x => Ok x | None => Err EBounds end) in
          let* pbi := (match nth_error pb1 i with Some x => Ok x | None => Err EBounds end) in
          let* t := iterate_collist (i :: path) s rn pbi pd' in
          let* ts := go l' (S i) in
          Ok (t :: ts)
        end) l k = Ok ts /\ length ts = length l /\ forall j (t : ptree (lcall K)), nth_error ts j = Some t -> exists r pbj, nth_error (cp_split p) (k + j) = Some r /\
            nth_error pb1 (k + j) = Some pbj /\ Permutation (pres t) (flat_map own pbj) /\ Permutation (posts t) (flat_map own pbj) /\ par_calls cols_apart t).
      { induction l as [|s l IHl]; intros k Hl Ll; [exists []; split; [reflexivity|]; split; [reflexivity|]; intros [|j] t Hj; discriminate|].
        pose proof (Hl 0) as Hs. cbn in Hs. rewrite Nat.add_0_r in Hs. symmetry in Hs.
        assert (Hr : nth_error (cp_split p) k = Some (CP (k :: path) s)) by (rewrite cp_split_nth; change (c_sons (cp_c p)) with sons; rewrite Hs; reflexivity).
        rewrite (Hn _ _ Hr). cbn [rbind]. destruct (nth_lt pb1 k) as [pbk Hk]; [rewrite <- (Forall2_len _ _ _ L1), cp_split_length; apply nth_error_Some; change (c_sons (cp_c p)) with sons; congruence|].
        rewrite Hk. cbn [rbind]. rewrite Forall_forall in IH.
        destruct (IH s (nth_error_In _ _ Hs) (k :: path) pbk pd') as (t & Et & T1 & T2 & T3).
        { eapply (numl_nth ct _ _ _ _ (numl_split ct p P) Hr). }
        { exact (Forall2_nth _ _ _ L1 k _ _ Hr Hk). }
        rewrite Et. cbn [rbind]. destruct (IHl (S k)) as (ts & -> & Lt & Ht); [intros j; pose proof (Hl (S j)) as Hj; cbn in Hj; rewrite Hj; f_equal; lia|cbn in Ll; lia|]. cbn [rbind].
        exists (t :: ts). split; [reflexivity|]. split; [cbn; congruence|]. intros [|j] t' Hj; cbn in Hj.
        - injection Hj as <-. rewrite Nat.add_0_r. eauto 8.
        - destruct (Ht j t' Hj) as (r & pbj & ?). exists r, pbj. replace (k + S j) with (S k + j) by lia. assumption. }
      destruct (G sons 0 (fun j => eq_refl) eq_refl) as (ts & Ets & Lt & Ht). cbn [Nat.add] in Ht.
      rewrite Ets. cbn [rbind]. exists (ploop (0 <? pd) ts). split; [reflexivity|].
      assert (Lp : length ts = length pb1) by (rewrite Lt, <- (Forall2_len _ _ _ L1), cp_split_length; reflexivity).
      assert (F2 : Forall2 (fun (t : ptree (lcall K)) pbj => Permutation (pres t) (flat_map own pbj) /\ Permutation (posts t) (flat_map own pbj)) ts pb1).
      { clear - Lp Ht. revert pb1 Lp Ht. generalize (cp_split p) as R. induction ts as [|t ts IHt]; intros R pb1 Lp Ht; destruct pb1 as [|pb0 pb1]; try discriminate; constructor.
        - destruct (Ht 0 t eq_refl) as (r & pbj & _ & E & ? & ? & _). injection E as <-. auto.
        - apply (IHt (tl R)); [cbn in Lp; lia|]. intros j t' Hj. destruct (Ht (S j) t' Hj) as (r & pbj & Hr & E & ?). exists r, pbj. split; [destruct R; [discriminate|exact Hr]|]. split; [exact E|assumption]. }
      split; [|split].
      + unfold pres. rewrite pcalls_loop. rewrite <- Q1. clear - F2. induction F2 as [|t pbj ts pb1 [A _] F2 IHf]; cbn [flat_map concat]; [reflexivity|].
        rewrite !flat_map_app. apply Permutation_app; assumption.
      + unfold posts. rewrite pcalls_loop. rewrite <- Q1. clear - F2. induction F2 as [|t pbj ts pb1 [_ A] F2 IHf]; cbn [flat_map concat]; [reflexivity|].
        rewrite !flat_map_app. apply Permutation_app; assumption.
      + apply par_loop; [intros t Hin; apply In_nth_error in Hin as [j Hj]; destruct (Ht j t Hj) as (? & ? & ? & ? & ? & ? & ?); assumption|].
        assert (PP : partition_tree (cp_c p)) by (intros s Hs; apply PT; eapply nodes_trans; [apply points_nodes; exact P|exact Hs]).
        apply fop_nth. intros i j t u Hij Hi Hj c1 c2 H1 H2 e1 e2 He1 He2.
        destruct (Ht i t Hi) as (ri & pbi & Hri & Hpi & A1 & A2 & _). destruct (Ht j u Hj) as (rj & pbj & Hrj & Hpj & B1 & B2 & _).
        pose proof (entries_cols ri pbi t c1 e1 (Forall2_nth _ _ _ L1 _ _ _ Hri Hpi) A1 A2 H1 He1) as N1.
        pose proof (entries_cols rj pbj u c2 e2 (Forall2_nth _ _ _ L1 _ _ _ Hrj Hpj) B1 B2 H2 He2) as N2.
        left. exact (split_apart p i j ri rj PP Hri Hrj Hij _ _ N1 N2). }
  destruct G as (body & -> & B1 & B2 & B3). cbn [rbind]. eexists. split; [reflexivity|]. split; [|split].
  - unfold pres in *. cbn [pcalls]. rewrite !flat_map_app. cbn [flat_map app]. rewrite !app_nil_r, B1. symmetry. apply own_split.
  - unfold posts in *. cbn [pcalls]. rewrite !flat_map_app. cbn [flat_map app]. rewrite !app_nil_r, B2, own_split. apply Permutation_app_comm.
  - cbn [par_calls]. auto.
Qed.

Lemma iterate_bycol_ok b n pd : partition_tree ct -> block_tree b -> points_into rt (b_rc b) -> points_into ct (b_cc b) ->
  exists t : ptree (blcall K), iterate_bycol_block b n (r0 + cpnum rt (b_rc b)) (c0 + cpnum ct (b_cc b)) pd = Ok t /\
    Permutation (bpres t) (bnum b n) /\ Permutation (bposts t) (bnum b n) /\
    par_calls (fun u v => apart_cl (cp_c (b_cc (call_block u))) (cp_c (b_cc (call_block v)))) t.
Proof.
  intros PT T P1 P2. unfold iterate_bycol_block. destruct (addcol_ok b T P1 P2 n None []) as (E & -> & A2 & A3). rewrite app_nil_r. cbn [rbind].
  destruct (iterate_collist_ok PT (cp_c (b_cc b)) (cp_path (b_cc b)) E pd) as (t & Et & T1 & T2 & T3); try (rewrite cp_eta; assumption).
  rewrite cp_eta in Et. rewrite Et. cbn [rbind]. eexists. split; [reflexivity|]. split; [rewrite bpres_bind, T1; exact A3|]. split; [rewrite bposts_bind, T2; exact A3|].
  eapply par_bind; [|exact T3]. cbn. intros k1 k2 x y H Hx Hy. destruct (blocklist_in k1 x Hx) as (e1 & He1 & ->). destruct (blocklist_in k2 y Hy) as (e2 & He2 & ->).
  apply H; assumption.
Qed.
End Cols.
