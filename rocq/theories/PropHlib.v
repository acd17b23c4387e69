(** * Property C29: writing an H-matrix to a text file and reading it *)
From Coq Require Import NArith ZArith QArith Qcanon Ascii String Arith Lia Bool List.
From Verif Require Import Fld Inst Ord OrdInst Prog Arr View Spec Loop Cluster Block Amatrix AmatrixP AmatrixP2 Rkmatrix RkSpec RkP Hmatrix HmSpec HmP HmP4 HmP5
  Hlib HlibSpec HlibP HlibP2 HlibP3 HlibP4 HlibP5 HlibP6.
Import ListNotations.
Local Open Scope nat_scope.
Local Open Scope list_scope.

Section C29.
Context {K : fops} {G : ofops}.
Implicit Types (m : mem K) (h : hmatrix G) (D : nat -> nat -> K).

(** An H-matrix whose clusters are split consistently is written without a change of memory, and
    reading the text into any memory gives an H-matrix that represents the same matrix, with the
    same splitting, the same ranks and the same entries in all leaves, with correct clusters, in
    new storage. *)
Theorem C29_roundtrip : forall (ft : ftext K) h D R C m,
  hrep m h D -> hfits h R C -> hsmall h -> hprintable ft m h ->
  ends (write_hlib_hmatrix ft h) m (fun t m1 => m1 = m /\ forall m2,
    ends (read_hlib_hmatrix ft t) m2 (fun o m' => exists h', o = Some h' /\
      hrep m' h' D /\ (exists d, content m h d /\ content m' h' d) /\ hown m' h' /\ hdesc_ok h' /\
      hcl_sons h' /\ hplaced h' /\ c_off (cp_c (hm_rc h')) = 0 /\ c_off (cp_c (hm_cc h')) = 0 /\
      (forall b, In b (hblocks h') -> next m2 <= b) /\ keeps (fun a => next m2 <= fst a) m2 m')).
Proof.
  intros ft h D R C m Hr Hf Hs Hp. apply wp_ends. eapply wp_roundtrip; [exact Hr|exact Hf|exact Hs|exact Hp|]. intros t Ht. split; [reflexivity|].
  intros m2. apply wp_ends. eapply wp_conseq; [apply Ht|]. cbv beta. intros o m' (h' & -> & H1 & H2 & H3 & H4 & H5 & H6 & H7 & H8 & H9 & H10).
  exists h'. auto 12.
Qed.

(** The same for matrices where each subdivided block is split according to the sons of its
    clusters; a cluster without sons is not split. *)
Theorem C29_roundtrip_sons : forall (ft : ftext K) h D m,
  hrep m h D -> hstd h -> hsmall h -> hprintable ft m h ->
  ends (write_hlib_hmatrix ft h) m (fun t m1 => m1 = m /\ forall m2,
    ends (read_hlib_hmatrix ft t) m2 (fun o m' => exists h', o = Some h' /\
      hrep m' h' D /\ (exists d, content m h d /\ content m' h' d) /\ hown m' h' /\ hdesc_ok h' /\
      hcl_sons h' /\ hplaced h' /\ c_off (cp_c (hm_rc h')) = 0 /\ c_off (cp_c (hm_cc h')) = 0 /\
      (forall b, In b (hblocks h') -> next m2 <= b) /\ keeps (fun a => next m2 <= fst a) m2 m')).
Proof.
  intros ft h D m Hr Hs. destruct (hstd_shape h m D Hr Hs) as (R & C & Hf). exact (C29_roundtrip ft h D R C m Hr Hf).
Qed.

(** The numbering of the unknowns is not stored: with the index arrays [0, 1, 2, ...] of the clusters
    that have been read, the new matrix represents the permuted matrix. *)
Theorem C29_numbering : forall (ft : ftext K) h (A : nat -> nat -> K) ridx cidx gr gc R C m,
  perm_at ridx (c_off (cp_c (hm_rc h))) (hrows h) gr -> perm_at cidx (c_off (cp_c (hm_cc h))) (hcols h) gc ->
  hrep m h (fun i j => A (gr i) (gc j)) -> hfits h R C -> hsmall h -> hprintable ft m h ->
  ends (write_hlib_hmatrix ft h) m (fun t _ => forall m2,
    ends (read_hlib_hmatrix ft t) m2 (fun o m' => exists h', o = Some h' /\
      hrepi m' (aof (seq 0 (hrows h))) (aof (seq 0 (hcols h))) h' (fun i j => A (gr i) (gc j)))).
Proof.
  intros ft h A ridx cidx gr gc R C m H1 H2 Hr Hf Hs Hp. apply wp_ends. eapply wp_roundtrip; [exact Hr|exact Hf|exact Hs|exact Hp|]. intros t Ht m2.
  apply wp_ends. eapply wp_conseq; [apply Ht|]. cbv beta. intros o m' (h' & -> & _ & _ & Hr' & (d & Hc & Hc') & _ & _ & O1 & O2 & _). exists h'. split; [reflexivity|].
  destruct (content_size _ _ _ Hc) as [Z1 Z2]. destruct (content_size _ _ _ Hc') as [Z3 Z4].
  assert (Pid : forall n, perm_at (aof (seq 0 n)) 0 n (fun i => i)).
  { intros n. split; [|split; auto]. intros i Hi. unfold aget, aof. rewrite nth_error_map. cbn [Nat.add]. rewrite (nth_error_nth' (seq 0 n) 0) by (rewrite seq_length; exact Hi).
    rewrite seq_nth by exact Hi. reflexivity. }
  exists (fun i => i), (fun i => i). rewrite O1, O2, Z3, Z4, <- Z1, <- Z2. split; [apply Pid|]. split; [apply Pid|]. exact Hr'.
Qed.

(** In a build with complex numbers, sscanf converts two fields for one entry, and the assertion that
    it is one field fails: no dense leaf can be read. *)
Theorem C29_complex_refuted : forall (ft : ftext K) (rc cc : cptr G) f ds F m,
  (forall line, fst (ft_scan ft line) = 2) -> (forall x, ~ In nl (ft_print ft x) /\ List.length (ft_print ft x) < 79) ->
  mrows f = csz rc -> mcols f = csz cc -> mval m f F -> 0 < csz rc -> 0 < csz cc -> u32 (csz rc) -> u32 (csz cc) ->
  ends (write_hlib_hmatrix ft (HM rc cc None (Some f) None 0 0 ds)) m (fun t _ => forall m2, fails (@read_hlib_hmatrix K G ft t) m2 EAssert).
Proof.
  intros ft rc cc f ds F m H2 Hpr Er Ec HF Nr Nc Ur Uc. apply wp_ends. unfold write_hlib_hmatrix. apply wp_bind.
  assert (Hc : content m (HM rc cc None (Some f) None 0 0 ds) (DFull (csz rc) (csz cc) F)) by (constructor; assumption).
  eapply wp_write_part; [exact Hc|exact (dfits_full F (Shp (csz rc) []) (Shp (csz cc) []))|]. cbn [wp]. intros m2. unfold fails, read_hlib_hmatrix.
  rewrite fgets_str; [|intros X; cbn in X; intuition discriminate|cbn; lia].
  cbn [dtext]. rewrite <- !app_assoc. remember (List.length (dheader 2 0 0 (csz rc) (csz cc) ++ etext ft (csz rc) (csz cc) F ++ str "Ende der Matrix" ++ [nl])) as fuel eqn:Ef.
  destruct fuel as [|fuel]; [exfalso; rewrite !app_length in Ef; pose proof (dheader_len 2 0 0 (csz rc) (csz cc)); lia|]. clear Ef.
  cbn [read_hlib_part]. unfold dheader. rewrite <- !app_assoc.
  rewrite (fgets_uline _ _ _ _ fmt_type) by (unfold u32; lia). rewrite (proj2 (proj2 fmt_type)).
  rewrite (read_u_uline _ _ _ _ fmt_roff) by (unfold u32; lia). cbn [bind].
  rewrite (read_u_uline _ _ _ _ fmt_coff) by (unfold u32; lia). cbn [bind]. rewrite Nat.eqb_refl. cbn [passert bind].
  rewrite (read_u_uline _ _ _ _ fmt_rows) by assumption. cbn [bind]. rewrite (read_u_uline _ _ _ _ fmt_cols) by assumption. cbn [bind]. cbv zeta.
  unfold read_full, new_full_hmatrix, init_amatrix, palloc. cbn [bind run hm_f]. change (csz (pref (G := G) [0] (pnew (csz rc) 0))) with (csz rc). change (csz (pref (G := G) [1] (pnew (csz cc) 0))) with (csz cc).
  set (B := Mat _ _ _ _ _ _). set (m3 := alloc m2 _).
  assert (HB : malloc m3 B).
  { pose proof (wp_init_amatrix TT TT (csz rc) (csz cc) m2 (fun A m' => malloc m' A)) as X. unfold init_amatrix, palloc in X. cbn [wp bind] in X. apply X. intros; assumption. }
  unfold read_entries. destruct (csz cc) as [|c] eqn:Ecc; [lia|]. destruct (csz rc) as [|r] eqn:Erc; [lia|]. cbn [forS]. unfold etext. rewrite !scat_S. rewrite <- !app_assoc. cbn [app].
  unfold gets. rewrite fgets_line by apply Hpr. cbn [bind fst snd].
  pose proof (H2 (ft_print ft (F 0 0) ++ [nl])) as H2'. destruct (ft_scan ft (ft_print ft (F 0 0) ++ [nl])) as [k x]. cbn [fst] in H2'. subst k.
  assert (N0 : get m3 (ma B 0 0) <> Free) by (apply HB; cbn; lia).
  unfold mstore, pstore. cbn [bind run]. destruct (get m3 (ma B 0 0)) eqn:Eg; [congruence| |]; reflexivity.
Qed.
End C29.

(** ** A concrete case: numbers 0, 1, 2, ... printed in decimal notation *)
Definition ftq : ftext Qcf :=
  FText Qcf (fun x => printu (Z.to_nat (Qnum (this x)))) (fun line => match scan_uint (skipws line) with Some n => (1, Q2Qc (inject_Z (Z.of_nat n))) | None => (0, Q2Qc 0) end).
Definition nq (n : nat) : Qcf := Q2Qc (inject_Z (Z.of_nat n)).

Lemma get_mem_in (bl : list (list Qcf)) a x : get (mem_of bl) a = Val x -> In x (concat bl).
Proof.
  intros H. unfold get in H. destruct (fst a <? next (mem_of bl)); [|discriminate]. cbn [mem_of raw] in H.
  destruct (nth_error bl (fst a)) as [l|] eqn:E1; [|discriminate].
  destruct (nth_error l (snd a)) as [y|] eqn:E2; [|discriminate]. injection H as <-. apply in_concat. exists l. split; eapply nth_error_In; eassumption.
Qed.
Ltac good1 := split; [intros X; vm_compute in X; intuition discriminate|split; [vm_compute; repeat constructor|vm_compute; reflexivity]].

(** A 3 x 3 matrix with a 1 x 1, a 2 x 1 low-rank, a 1 x 2 and a 2 x 2 block *)
Definition xwl (k o : nat) : cluster QcO := Cl k o [] 0 (anew 0) (anew 0) (Some 1) 0.
Definition xwt : cluster QcO := Cl 3 0 [xwl 1 0; xwl 2 1] 0 (anew 0) (anew 0) (Some 3) 0.
Definition xw0 : cptr QcO := CP [0] (xwl 1 0).
Definition xw1 : cptr QcO := CP [1] (xwl 2 1).
Definition xwf00 : mat := Mat 0 0 1 1 1 true.
Definition xwA : mat := Mat 1 0 2 2 1 true.
Definition xwB : mat := Mat 2 0 1 1 1 true.
Definition xwf01 : mat := Mat 3 0 1 1 2 true.
Definition xwf11 : mat := Mat 4 0 2 2 2 true.
Definition xw : hmatrix QcO :=
  HM (CP [] xwt) (CP [] xwt) None None (Some [HM xw0 xw0 None (Some xwf00) None 0 0 1; HM xw1 xw0 (Some (Rk xwA xwB 1)) None None 0 0 1;
    HM xw0 xw1 None (Some xwf01) None 0 0 1; HM xw1 xw1 None (Some xwf11) None 0 0 1]) 2 2 5.
Definition xwm : list (list Qcf) := [ [nq 1]; [nq 2; nq 10]; [nq 37]; [nq 5; nq 71]; [nq 1; nq 25; nq 3; nq 0] ].
Definition xwD (p q : nat) : Qcf :=
  if p <? 1 then (if q <? 1 then mof xwm xwf00 p q else mof xwm xwf01 p (q - 1))
  else (if q <? 1 then lowrank 1 (mof xwm xwA) (mof xwm xwB) (p - 1) q else mof xwm xwf11 (p - 1) (q - 1)).
Lemma xw_rep : hrep (mem_of xwm) xw xwD.
Proof.
  eapply (hrep_super _ _ _ _ 2 2 _ (fun i => nth i [1; 2] 0) (fun i => nth i [1; 2] 0)); try reflexivity; try lia.
  - intros [|[|i]] [|[|j]] s Hi Hj Hs; try lia; cbn in Hs; injection Hs as <-; split; reflexivity.
  - intros [|[|i]] [|[|j]] s Hi Hj Hs; try lia; cbn in Hs; injection Hs as <-; constructor; try reflexivity.
    + eapply mval_ext; [apply mval_of; reflexivity|]. intros p q Hp Hq. cbn in Hp, Hq. destruct p, q; [reflexivity|lia..].
    + eapply mval_ext; [apply mval_of; reflexivity|]. intros p q Hp Hq. cbn in Hp, Hq. destruct p; [|lia]. cbn [nsum nth Nat.add]. unfold xwD.
      cbn [Nat.ltb Nat.leb Nat.sub]. rewrite Nat.sub_0_r. reflexivity.
    + exists (mof xwm xwA), (mof xwm xwB). split; [apply mval_of; reflexivity|]. split; [apply mval_of; reflexivity|]. split; [reflexivity|]. split; [reflexivity|].
      intros p q Hp Hq. cbn in Hp, Hq. destruct q; [|lia]. cbn [nsum nth Nat.add]. unfold xwD. cbn [Nat.ltb Nat.leb Nat.sub]. rewrite Nat.sub_0_r. reflexivity.
    + eapply mval_ext; [apply mval_of; reflexivity|]. intros p q Hp Hq. cbn [nsum nth Nat.add]. unfold xwD. cbn [Nat.ltb Nat.leb Nat.sub]. rewrite !Nat.sub_0_r. reflexivity.
Qed.
Lemma xw_std : hstd xw.
Proof.
  intros s l Hs Hl. cbn in Hs. decompose [or] Hs; try contradiction; subst s; try discriminate. cbn in Hl. injection Hl as <-. split; [reflexivity|]. cbn [hm_rsons hm_csons hm_rc hm_cc].
  intros [|[|i]] [|[|j]] t Hi Hj Ht; try lia; cbn in Ht; injection Ht as <-; split; right; cbn; split; try lia; split; reflexivity.
Qed.
Lemma xw_small : hsmall xw.
Proof.
  intros s Hs. cbn in Hs. decompose [or] Hs; try contradiction; subst s; unfold u32; cbn; repeat split; try reflexivity; intros r [= <-]; reflexivity.
Qed.
Lemma xw_print : hprintable ftq (mem_of xwm) xw.
Proof.
  intros a x _ Hx. apply get_mem_in in Hx. cbn [concat xwm app] in Hx. repeat (destruct Hx as [<-|Hx]; [good1|]). destruct Hx.
Qed.
Example C29_hyps : hrep (mem_of xwm) xw xwD /\ hstd xw /\ hsmall xw /\ hprintable ftq (mem_of xwm) xw.
Proof. split; [exact xw_rep|]. split; [exact xw_std|]. split; [exact xw_small|exact xw_print]. Qed.

(** If a cluster is split in one block and not in another one, the file can be written, but reading
    it fails: a 2 x 3 matrix with a 2 x 1 block that is split into two rows and a 2 x 2 block that is
    split into two columns. *)
Definition xvr : cluster QcO := Cl 2 0 [xwl 1 0; xwl 1 1] 0 (anew 0) (anew 0) (Some 3) 0.
Definition xvc1 : cluster QcO := Cl 2 1 [xwl 1 1; xwl 1 2] 0 (anew 0) (anew 0) (Some 3) 0.
Definition xvc : cluster QcO := Cl 3 0 [xwl 1 0; xvc1] 0 (anew 0) (anew 0) (Some 5) 0.
Definition xvs0 : hmatrix QcO := HM (CP [] xvr) (CP [0] (xwl 1 0)) None None (Some [
  HM (CP [0] (xwl 1 0)) (CP [0] (xwl 1 0)) None (Some (Mat 0 0 1 1 1 true)) None 0 0 1;
  HM (CP [1] (xwl 1 1)) (CP [0] (xwl 1 0)) None (Some (Mat 1 0 1 1 1 true)) None 0 0 1]) 2 1 3.
Definition xvs1 : hmatrix QcO := HM (CP [] xvr) (CP [1] xvc1) None None (Some [
  HM (CP [] xvr) (CP [0; 1] (xwl 1 1)) None (Some (Mat 2 0 2 2 1 true)) None 0 0 1;
  HM (CP [] xvr) (CP [1; 1] (xwl 1 2)) None (Some (Mat 3 0 2 2 1 true)) None 0 0 1]) 1 2 3.
Definition xv : hmatrix QcO := HM (CP [] xvr) (CP [] xvc) None None (Some [xvs0; xvs1]) 1 2 7.
Definition xvm : list (list Qcf) := [ [nq 1]; [nq 2]; [nq 3; nq 4]; [nq 5; nq 6] ].
Definition xvD (p q : nat) : Qcf := nth p (nth q [[nq 1; nq 2]; [nq 3; nq 4]; [nq 5; nq 6]] []) (nq 0).
Theorem C29_inconsistent_refuted : exists (m : mem Qcf) (h : hmatrix QcO) D, hrep m h D /\ hsmall h /\ hprintable ftq m h /\ hplaced h /\
  ends (write_hlib_hmatrix ftq h) m (fun t _ => fails (@read_hlib_hmatrix Qcf QcO ftq t) m EAssert).
Proof.
  exists (mem_of xvm), xv, xvD. split; [|split; [|split; [|split]]].
  - assert (one : forall (rc cc : cptr QcO) b o D, csz rc = 1 -> csz cc = 1 -> get (mem_of xvm) (b, o) = Val (D 0 0) ->
      hrep (mem_of xvm) (HM rc cc None (Some (Mat b o 1 1 1 true)) None 0 0 1) D).
    { intros rc cc b o D E1 E2 Eg. constructor; cbn; try congruence. intros [|i] [|j] Hi Hj; cbn in Hi, Hj; try lia. unfold ma. cbn. rewrite Nat.add_0_r. exact Eg. }
    assert (two : forall (rc cc : cptr QcO) b D, csz rc = 2 -> csz cc = 1 -> get (mem_of xvm) (b, 0) = Val (D 0 0) -> get (mem_of xvm) (b, 1) = Val (D 1 0) ->
      hrep (mem_of xvm) (HM rc cc None (Some (Mat b 0 2 2 1 true)) None 0 0 1) D).
    { intros rc cc b D E1 E2 Eg Eh. constructor; cbn; try congruence. intros [|[|i]] [|j] Hi Hj; cbn in Hi, Hj; try lia; assumption. }
    eapply (hrep_super _ _ _ _ 1 2 _ (fun _ => 2) (fun i => nth i [1; 2] 0)); try reflexivity; try lia.
    + intros [|i] [|[|j]] s Hi Hj Hs; try lia; cbn in Hs; injection Hs as <-; split; reflexivity.
    + intros [|i] [|[|j]] s Hi Hj Hs; try lia; cbn in Hs; injection Hs as <-.
      * eapply (hrep_super _ _ _ _ 2 1 _ (fun _ => 1) (fun i => 1)); try reflexivity; try lia.
        -- intros [|[|i]] [|j] s Hi' Hj' Hs; try lia; cbn in Hs; injection Hs as <-; split; reflexivity.
        -- intros [|[|i]] [|j] s Hi' Hj' Hs; try lia; cbn in Hs; injection Hs as <-; apply one; reflexivity.
      * eapply (hrep_super _ _ _ _ 1 2 _ (fun _ => 2) (fun i => 1)); try reflexivity; try lia.
        -- intros [|i] [|[|j]] s Hi' Hj' Hs; try lia; cbn in Hs; injection Hs as <-; split; reflexivity.
        -- intros [|i] [|[|j]] s Hi' Hj' Hs; try lia; cbn in Hs; injection Hs as <-; apply two; reflexivity.
  - intros s Hs. cbn in Hs. decompose [or] Hs; try contradiction; subst s; unfold u32; cbn; repeat split; try reflexivity; intros r [=].
  - intros a x _ Hx. apply get_mem_in in Hx. cbn [concat xvm app] in Hx. repeat (destruct Hx as [<-|Hx]; [good1|]). destruct Hx.
  - apply (hplaced_super _ _ _ _ _ _ (fun _ => 2) (fun i => nth i [1; 2] 0)). intros [|i] [|[|j]] s Hi Hj Hs; try lia; cbn in Hs; injection Hs as <-; repeat (split; [reflexivity|]).
    + apply (hplaced_super _ _ _ _ _ _ (fun _ => 1) (fun i => 1)). intros [|[|i]] [|j] s Hi' Hj' Hs; try lia; cbn in Hs; injection Hs as <-; repeat (split; [reflexivity|]); apply hplaced_leaf; reflexivity.
    + apply (hplaced_super _ _ _ _ _ _ (fun _ => 2) (fun i => 1)). intros [|i] [|[|j]] s Hi' Hj' Hs; try lia; cbn in Hs; injection Hs as <-; repeat (split; [reflexivity|]); apply hplaced_leaf; reflexivity.
  - unfold ends. eexists _, _. split; [vm_compute; reflexivity|]. vm_compute. reflexivity.
Qed.

(** read_hlibsymm_hmatrix does not count the submatrices: [desc] is zero for a subdivided matrix
    although reading the same text with read_hlib_hmatrix sets it. *)
Definition xwtext : text := match run (write_hlib_hmatrix ftq xw) (mem_of xwm) with Ok (t, _) => t | Err _ => [] end.
Definition symm_of (t : text) : option (hmatrix QcO) := match run (@read_hlibsymm_hmatrix Qcf QcO ftq t) (mem_of []) with Ok (o, _) => o | Err _ => None end.
Lemma xwtext_ok : ends (write_hlib_hmatrix ftq xw) (mem_of xwm) (fun t _ => t = xwtext).
Proof. unfold xwtext. destruct (C29_roundtrip_sons ftq xw xwD (mem_of xwm) xw_rep xw_std xw_small xw_print) as (t & m1 & E & _). rewrite E. exists t, m1. split; [exact E|reflexivity]. Qed.
Theorem C29_symm_desc_refuted : exists (m : mem Qcf) (h : hmatrix QcO) D, hrep m h D /\ hstd h /\ hsmall h /\ hprintable ftq m h /\ hm_rc h = hm_cc h /\
  ends (write_hlib_hmatrix ftq h) m (fun t _ => ends (@read_hlibsymm_hmatrix Qcf QcO ftq t) (mem_of []) (fun o _ =>
    exists h', o = Some h' /\ hm_desc h' = 0 /\ List.length (hnodes h') = 5 /\ ~ hdesc_ok h')).
Proof.
  exists (mem_of xwm), xw, xwD. split; [exact xw_rep|]. split; [exact xw_std|]. split; [exact xw_small|]. split; [exact xw_print|]. split; [reflexivity|].
  destruct xwtext_ok as (t & m1 & E & ->). exists xwtext, m1. split; [exact E|].
  assert (X : match run (@read_hlibsymm_hmatrix Qcf QcO ftq xwtext) (mem_of []) with Ok (Some h', _) => Some (hm_desc h', List.length (hnodes h')) | _ => None end = Some (0, 5)) by (vm_compute; reflexivity).
  unfold ends. destruct (run (@read_hlibsymm_hmatrix Qcf QcO ftq xwtext) (mem_of [])) as [[[h'|] m']|]; try discriminate. injection X as X1 X2.
  exists (Some h'), m'. split; [reflexivity|]. exists h'. split; [reflexivity|]. split; [exact X1|]. split; [exact X2|]. intros Hd. specialize (Hd h'). rewrite X1, X2 in Hd.
  assert (In h' (hnodes h')) by (destruct h'; left; reflexivity). specialize (Hd H). discriminate.
Qed.

(** Off-diagonal blocks are read with the row index of the row cluster for the columns, too.  If a
    diagonal block is a leaf and the off-diagonal blocks are subdivided, the sons of the column
    cluster get wrong indices. *)
Definition xsl (o : nat) : cluster QcO := Cl 2 o [xwl 1 o; xwl 1 (S o)] 0 (anew 0) (anew 0) (Some 3) 0.
Definition xst : cluster QcO := Cl 4 0 [xsl 0; xsl 2] 0 (anew 0) (anew 0) (Some 7) 0.
Definition xsc (i : nat) : cptr QcO := CP [i] (xsl (2 * i)).
Definition xscc (i k : nat) : cptr QcO := CP [k; i] (xwl 1 (2 * i + k)).
Definition xsleaf (i b : nat) : hmatrix QcO := HM (xsc i) (xsc i) None (Some (Mat b 0 2 2 2 true)) None 0 0 1.
Definition xsone (i k j l b : nat) : hmatrix QcO := HM (xscc i k) (xscc j l) None (Some (Mat b 0 1 1 1 true)) None 0 0 1.
Definition xsoff (i j b : nat) : hmatrix QcO :=
  HM (xsc i) (xsc j) None None (Some [xsone i 0 j 0 b; xsone i 1 j 0 (S b); xsone i 0 j 1 (S (S b)); xsone i 1 j 1 (S (S (S b)))]) 2 2 5.
Definition xs : hmatrix QcO := HM (CP [] xst) (CP [] xst) None None (Some [xsleaf 0 0; xsoff 1 0 1; xsoff 0 1 5; xsleaf 1 9]) 2 2 13.
Definition xsm : list (list Qcf) := [ [nq 9; nq 1; nq 1; nq 9]; [nq 1]; [nq 2]; [nq 3]; [nq 4]; [nq 1]; [nq 3]; [nq 2]; [nq 4]; [nq 7; nq 2; nq 2; nq 7] ].
Definition xstext : text := match run (write_hlib_hmatrix ftq xs) (mem_of xsm) with Ok (t, _) => t | Err _ => [] end.
(** The first columns of the blocks of the submatrix in the lower left corner *)
Definition offs10 (h : hmatrix QcO) : list nat :=
  match hm_son h with Some l => match nth_error l 1 with Some s => c_off (cp_c (hm_cc s)) :: match hm_son s with Some l => map (fun s => c_off (cp_c (hm_cc s))) l | None => [] end | None => [] end | None => [] end.
Definition rd10 (r : res (option (hmatrix QcO) * mem Qcf)) : option (list nat) := match r with Ok (Some h', _) => Some (offs10 h') | _ => None end.
Lemma rd10_ex r l : rd10 r = Some l -> exists o m', r = Ok (o, m') /\ exists h', o = Some h' /\ offs10 h' = l.
Proof. destruct r as [[[h'|] m']|]; cbn; intros E; try discriminate. injection E as <-. eauto 6. Qed.
Theorem C29_symm_columns_refuted :
  hplaced xs /\ offs10 xs = [0; 0; 0; 1; 1] /\
  ends (write_hlib_hmatrix ftq xs) (mem_of xsm) (fun t _ =>
    ends (@read_hlib_hmatrix Qcf QcO ftq t) (mem_of []) (fun o _ => exists h', o = Some h' /\ offs10 h' = [0; 0; 0; 1; 1]) /\
    ends (@read_hlibsymm_hmatrix Qcf QcO ftq t) (mem_of []) (fun o _ => exists h', o = Some h' /\ offs10 h' = [0; 2; 2; 3; 3])).
Proof.
  split; [|split; [reflexivity|]].
  - assert (off : forall i j b, hplaced (xsoff i j b)).
    { intros i j b. apply (hplaced_super _ _ _ _ _ _ (fun _ => 1) (fun _ => 1)). intros [|[|k]] [|[|l]] s Hk Hl Hs; try lia; cbn in Hs; injection Hs as <-; cbn; repeat split; try lia; apply hplaced_leaf; reflexivity. }
    apply (hplaced_super _ _ _ _ _ _ (fun _ => 2) (fun _ => 2)). intros [|[|k]] [|[|l]] s Hk Hl Hs; try lia; cbn in Hs; injection Hs as <-; cbn; repeat split; try lia; try apply off; apply hplaced_leaf; reflexivity.
  - assert (X : match run (write_hlib_hmatrix ftq xs) (mem_of xsm) with Ok (t, _) =>
        (rd10 (run (@read_hlib_hmatrix Qcf QcO ftq t) (mem_of [])), rd10 (run (@read_hlibsymm_hmatrix Qcf QcO ftq t) (mem_of []))) | Err _ => (None, None) end =
        (Some [0; 0; 0; 1; 1], Some [0; 2; 2; 3; 3])) by (vm_compute; reflexivity).
    unfold ends. destruct (run (write_hlib_hmatrix ftq xs) (mem_of xsm)) as [[t m1]|]; [|discriminate]. injection X as X1 X2.
    exists t, m1. split; [reflexivity|]. split.
    + exact (rd10_ex _ _ X1).
    + exact (rd10_ex _ _ X2).
Qed.

Print Assumptions C29_roundtrip.
Print Assumptions C29_roundtrip_sons.
Print Assumptions C29_numbering.
Print Assumptions C29_complex_refuted.
Print Assumptions C29_inconsistent_refuted.
Print Assumptions C29_symm_desc_refuted.
Print Assumptions C29_symm_columns_refuted.
