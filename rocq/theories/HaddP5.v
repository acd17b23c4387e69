(** * Addition of H-matrices: the recursion *)
From Coq Require Import Arith Lia List Bool Permutation Ring.
From Verif Require Import Fld Ord Prog Arr View Loop Line Spec Cluster Block BlockP Avector Amatrix AvectorP AmatrixP AmatrixP2 Rkmatrix RkSpec RkP Factor FactorSpec Chol CholSpec Qr QrSpec
  CbmSpec CbmP CopSpec OrthoP SepP SepP2 Htrunc HtSpec HtP HtP2 HtP3 HtP4 Hmatrix HmSpec HmP HmP4 HlibSpec HaddSpec HmvP Hadd MgP MgP2 MgP3 HaddP HaddP2 HaddP3 HaddP4.
Import ListNotations.

Section Parts.
Context {K : fops} {G : ofops}.
Local Notation hmx := (hmatrix G).
Implicit Types (m : mem K) (h s t : hmx) (l : list hmx) (c : cptr G).

(** Part [i] of the cluster [c] *)
Definition prt c (i : nat) : cptr G := if 0 <? cp_sons c then match cp_son c i with Ok t => t | Err _ => c end else c.
Lemma cl_part_prt c n i (t : cptr G) : cl_part c n i t -> t = prt c i /\ n = part_sons true c /\ part_son (K := K) true c i = Ret t.
Proof.
  unfold prt, part_sons, part_son. cbn [andb]. intros [(E1 & E2 & E3)|(E1 & E2 & E3)].
  - rewrite E1. subst n t. auto.
  - rewrite <- E2. rewrite (proj2 (Nat.ltb_lt 0 n) E1), E3. auto.
Qed.
Lemma hnodes_self h : In h (hnodes h).
Proof. destruct h. left. reflexivity. Qed.
Lemma hnodes_son h l s t : hm_son h = Some l -> In s l -> In t (hnodes s) -> In t (hnodes h).
Proof. destruct h; cbn [hm_son]. intros -> Hs Ht. cbn [hnodes]. right. apply in_flat_map. exists s. auto. Qed.
Lemma hstd_son h l s : hstd h -> hm_son h = Some l -> In s l -> hstd s.
Proof. intros HH Hl Hs t q Ht. apply HH. eapply hnodes_son; eassumption. Qed.
Lemma hpos_son h l s : hpos h -> hm_son h = Some l -> In s l -> hpos s.
Proof. intros HH Hl Hs t Ht. apply HH. eapply hnodes_son; eassumption. Qed.
Lemma nsum_ext' n (f g : nat -> nat) : (forall i, i < n -> f i = g i) -> nsum n f = nsum n g.
Proof. induction n as [|n IH]; intros E; [reflexivity|]. cbn [nsum]. rewrite IH, E by auto. reflexivity. Qed.

(** The parts of a subdivided H-matrix are the parts of its clusters *)
Lemma std_parts m rc cc l rs cs ds hs ws D : let h := HM rc cc None None (Some l) rs cs ds in hstd h -> 0 < rs -> 0 < cs -> length l = rs * cs ->
  (forall i j s, i < rs -> j < cs -> nth_error l (i + j * rs) = Some s -> hrows s = hs i /\ hcols s = ws j) ->
  (forall i j s, i < rs -> j < cs -> nth_error l (i + j * rs) = Some s -> hrep m s (fun p q => D (nsum i hs + p) (nsum j ws + q))) ->
  rs = part_sons true rc /\ cs = part_sons true cc /\
  (forall i, i < rs -> part_son (K := K) true rc i = Ret (prt rc i) /\ hs i = csz (prt rc i)) /\
  (forall j, j < cs -> part_son (K := K) true cc j = Ret (prt cc j) /\ ws j = csz (prt cc j)) /\
  (forall i j s, i < rs -> j < cs -> nth_error l (i + j * rs) = Some s -> hm_rc s = prt rc i /\ hm_cc s = prt cc j /\ hrep m s (fun p q => D (nsum i (fun i => csz (prt rc i)) + p) (nsum j (fun j => csz (prt cc j)) + q))).
Proof.
  intros h HS R0 C0 HL HZ HR. destruct (HS h l (hnodes_self h) eq_refl) as (_ & HP). cbn [hm_rsons hm_csons hm_rc hm_cc h] in HP.
  assert (Hex : forall i j, i < rs -> j < cs -> exists s, nth_error l (i + j * rs) = Some s) by (intros i j Hi Hj; apply nth_ex; rewrite HL; apply pos_lt; lia).
  assert (HrZ : forall i, i < rs -> hs i = csz (prt rc i)).
  { intros i Hi. destruct (Hex i 0 Hi C0) as (s & Hs). destruct (HP i 0 s Hi C0 Hs) as [P1 _]. apply cl_part_prt in P1 as (E1 & _). destruct (HZ i 0 s Hi C0 Hs) as [<- _]. unfold hrows. rewrite E1. reflexivity. }
  assert (HcZ : forall j, j < cs -> ws j = csz (prt cc j)).
  { intros j Hj. destruct (Hex 0 j R0 Hj) as (s & Hs). destruct (HP 0 j s R0 Hj Hs) as [_ P1]. apply cl_part_prt in P1 as (E1 & _). destruct (HZ 0 j s R0 Hj Hs) as [_ <-]. unfold hcols. rewrite E1. reflexivity. }
  destruct (Hex 0 0 R0 C0) as (s0 & Hs0). destruct (HP 0 0 s0 R0 C0 Hs0) as [P1 P2]. apply cl_part_prt in P1 as (_ & E1 & _). apply cl_part_prt in P2 as (_ & E2 & _).
  split; [exact E1|]. split; [exact E2|]. split; [|split].
  - intros i Hi. split; [|apply HrZ, Hi]. destruct (Hex i 0 Hi C0) as (s & Hs). destruct (HP i 0 s Hi C0 Hs) as [P1 _]. apply cl_part_prt in P1 as (E3 & _ & E4). rewrite E4, E3. reflexivity.
  - intros j Hj. split; [|apply HcZ, Hj]. destruct (Hex 0 j R0 Hj) as (s & Hs). destruct (HP 0 j s R0 Hj Hs) as [_ P1]. apply cl_part_prt in P1 as (E3 & _ & E4). rewrite E4, E3. reflexivity.
  - intros i j s Hi Hj Hs. destruct (HP i j s Hi Hj Hs) as [P1 P2]. apply cl_part_prt in P1 as (E3 & _). apply cl_part_prt in P2 as (E4 & _). split; [exact E3|]. split; [exact E4|].
    rewrite <- (nsum_ext' i hs) by (intros q Hq; apply HrZ; lia). rewrite <- (nsum_ext' j ws) by (intros q Hq; apply HcZ; lia). apply HR; assumption.
Qed.

(** ** Views of a dense matrix *)
Section Views.
Context (f : mat) (rc cc : cptr G) (rs cs : nat) (l : list hmx) (ds : nat).
Context (HW : mwf f) (RF : mrows f = csz rc) (CF : mcols f = csz cc) (R0 : 0 < rs) (C0 : 0 < cs) (HL : length l = rs * cs).
Notation ro x := (nsum x (fun i => csz (prt rc i))).
Notation co x := (nsum x (fun j => csz (prt cc j))).
Context (ER : ro rs = csz rc) (EC : co cs = csz cc).
Context (PR : forall i, i < rs -> 0 < csz (prt rc i)) (PC : forall j, j < cs -> 0 < csz (prt cc j)).
Context (HV : forall i j s, i < rs -> j < cs -> nth_error l (i + j * rs) = Some s -> s = HM (prt rc i) (prt cc j) None (Some (subm f (ro i) (csz (prt rc i)) (co j) (csz (prt cc j)))) None 0 0 1).
Lemma view_at k s : nth_error l k = Some s -> k mod rs < rs /\ k / rs < cs /\ s = HM (prt rc (k mod rs)) (prt cc (k / rs)) None (Some (subm f (ro (k mod rs)) (csz (prt rc (k mod rs))) (co (k / rs)) (csz (prt cc (k / rs))))) None 0 0 1.
Proof.
  intros Hk. assert (Hlt : k < rs * cs) by (rewrite <- HL; apply nth_error_Some; congruence).
  assert (Hi : k mod rs < rs) by (apply Nat.mod_upper_bound; lia). assert (Hj : k / rs < cs) by (apply Nat.div_lt_upper_bound; lia).
  split; [exact Hi|]. split; [exact Hj|]. apply HV; [exact Hi|exact Hj|]. replace (k mod rs + k / rs * rs) with k by (pose proof (Nat.div_mod k rs ltac:(lia)); lia). exact Hk.
Qed.
Lemma nsum_mono (g : nat -> nat) i i' : i < i' -> nsum i g + g i <= nsum i' g.
Proof. induction i' as [|i' IH]; intros Hi; [lia|]. cbn [nsum]. destruct (Nat.eq_dec i i') as [->|Hne]; [lia|]. specialize (IH ltac:(lia)). lia. Qed.
Lemma find_part (g : nat -> nat) n x : x < nsum n g -> exists i, i < n /\ nsum i g <= x < nsum i g + g i.
Proof.
  induction n as [|n IH]; intros Hx; [cbn in Hx; lia|]. cbn [nsum] in Hx. destruct (Nat.lt_ge_cases x (nsum n g)) as [Hl|Hl].
  - destruct (IH Hl) as (i & Hi & Hr). exists i. split; [lia|exact Hr].
  - exists n. split; [lia|lia].
Qed.
Lemma in_view i j a : i < rs -> j < cs -> inm (subm f (ro i) (csz (prt rc i)) (co j) (csz (prt cc j))) a <-> exists p q, p < csz (prt rc i) /\ q < csz (prt cc j) /\ a = ma f (ro i + p) (co j + q).
Proof. intros Hi Hj. split; intros (p & q & Hp & Hq & ->); exists p, q; cbn in *; rewrite ?ma_subm; auto. Qed.
Lemma views_fp a : hfp (HM rc cc None None (Some l) rs cs ds) a <-> inm f a.
Proof.
  rewrite hfp_super. split.
  - intros (k & s & Hk & Ha). destruct (view_at k s Hk) as (Hi & Hj & ->). apply hfp_full in Ha. eapply inm_subm; [| |exact Ha].
    + rewrite RF, <- ER. apply (nsum_in (fun i => csz (prt rc i))). exact Hi.
    + rewrite CF, <- EC. apply (nsum_in (fun j => csz (prt cc j))). exact Hj.
  - intros (p & q & Hp & Hq & ->). rewrite RF, <- ER in Hp. rewrite CF, <- EC in Hq.
    destruct (find_part _ _ _ Hp) as (i & Hi & Ei). destruct (find_part _ _ _ Hq) as (j & Hj & Ej). cbv beta in Ei, Ej.
    destruct (nth_ex l (i + j * rs) ltac:(rewrite HL; apply pos_lt; lia)) as (s & Hs). exists (i + j * rs), s. split; [exact Hs|]. rewrite (HV i j s Hi Hj Hs). apply hfp_full. apply in_view; [exact Hi|exact Hj|].
    exists (p - ro i), (q - co j). split; [lia|]. split; [lia|]. f_equal; lia.
Qed.
Lemma views_mut m : hmut m (HM rc cc None None (Some l) rs cs ds).
Proof.
  constructor.
  - intros s Hs. apply In_nth_error in Hs as (k & Hk). destruct (view_at k s Hk) as (Hi & Hj & ->). constructor; [apply PR, Hi|apply PC, Hj|apply mwf_subm; [exact HW|]].
    rewrite RF, <- ER. apply (nsum_in (fun i => csz (prt rc i))). exact Hi.
  - intros k k' s t Hs Ht Hne a Ha Hb. destruct (view_at k s Hs) as (Hi & Hj & ->). destruct (view_at k' t Ht) as (Hi' & Hj' & ->). apply hfp_full in Ha. apply hfp_full in Hb.
    apply in_view in Ha as (p & q & Hp & Hq & ->); [|exact Hi|exact Hj]. apply in_view in Hb as (p' & q' & Hp' & Hq' & EE); [|exact Hi'|exact Hj'].
    pose proof (nsum_in (fun i => csz (prt rc i)) _ _ Hi). pose proof (nsum_in (fun i => csz (prt rc i)) _ _ Hi').
    apply ma_inj in EE; [|exact HW|lia|lia]. destruct EE as [E1 E2].
    assert (k mod rs = k' mod rs).
    { destruct (Nat.lt_trichotomy (k mod rs) (k' mod rs)) as [Hl|[Hl|Hl]]; [|exact Hl|]; apply (nsum_mono (fun i => csz (prt rc i))) in Hl; lia. }
    assert (k / rs = k' / rs).
    { destruct (Nat.lt_trichotomy (k / rs) (k' / rs)) as [Hl|[Hl|Hl]]; [|exact Hl|]; apply (nsum_mono (fun j => csz (prt cc j))) in Hl; lia. }
    apply Hne. rewrite (Nat.div_mod k rs), (Nat.div_mod k' rs) by lia. congruence.
Qed.
Lemma views_part m (g : nat -> nat -> K) i j s : mval m f g -> i < rs -> j < cs -> nth_error l (i + j * rs) = Some s -> hrep m s (fun p q => g (ro i + p) (co j + q)).
Proof.
  intros Hg Hi Hj Hs. rewrite (HV i j s Hi Hj Hs). constructor; [reflexivity|reflexivity|]. apply mval_subm; [exact Hg| |].
  - rewrite RF, <- ER. apply (nsum_in (fun i => csz (prt rc i))). exact Hi.
  - rewrite CF, <- EC. apply (nsum_in (fun j => csz (prt cc j))). exact Hj.
Qed.
Lemma views_like h' : hlike (HM rc cc None None (Some l) rs cs ds) h' -> h' = HM rc cc None None (Some l) rs cs ds.
Proof.
  intros HH. inversion HH as [| |? ? ? l' ? ? ? HF]; subst. f_equal. f_equal. symmetry.
  assert (Hv : forall s, In s l -> exists a b g d, s = HM a b None (Some g) None 0 0 d) by (intros s Hs; apply In_nth_error in Hs as (k & Hk); destruct (view_at k s Hk) as (_ & _ & E); eauto).
  clear - HF Hv. induction HF as [|s t l l' Hst HF IH]; [reflexivity|]. f_equal; [|apply IH; intros u Hu; apply Hv; right; exact Hu].
  destruct (Hv s (or_introl eq_refl)) as (a & b & g & d & ->). inversion Hst; reflexivity.
Qed.
Lemma views_back m (g : nat -> nat -> K) : hrep m (HM rc cc None None (Some l) rs cs ds) g -> mval m f g.
Proof.
  intros HR. inversion HR as [| |? ? ? ? ? ? hs ws ? _ _ _ P4 P5 P6 P7]; subst. intros p q Hp Hq. rewrite RF, <- ER in Hp. rewrite CF, <- EC in Hq.
  destruct (find_part _ _ _ Hp) as (i & Hi & Ei). destruct (find_part _ _ _ Hq) as (j & Hj & Ej). cbv beta in Ei, Ej.
  assert (Hex : forall i j, i < rs -> j < cs -> exists s, nth_error l (i + j * rs) = Some s) by (intros i' j' Hi' Hj'; apply nth_ex; rewrite HL; apply pos_lt; lia).
  assert (E1 : ro i = nsum i hs).
  { apply nsum_ext'. intros i' Hi'. destruct (Hex i' 0 ltac:(lia) C0) as (s & Hs). destruct (P6 i' 0 s ltac:(lia) C0 Hs) as [<- _]. rewrite (HV i' 0 s ltac:(lia) C0 Hs). reflexivity. }
  assert (E2 : co j = nsum j ws).
  { apply nsum_ext'. intros j' Hj'. destruct (Hex 0 j' R0 ltac:(lia)) as (s & Hs). destruct (P6 0 j' s R0 ltac:(lia) Hs) as [_ <-]. rewrite (HV 0 j' s R0 ltac:(lia) Hs). reflexivity. }
  destruct (Hex i j Hi Hj) as (s & Hs). pose proof (P7 i j s Hi Hj Hs) as HRs. rewrite (HV i j s Hi Hj Hs) in HRs. inversion HRs as [|? ? ? ? ? _ _ HM|]; subst.
  specialize (HM (p - ro i) (q - co j) ltac:(cbn; lia) ltac:(cbn; lia)). rewrite ma_subm in HM. rewrite E1, E2 in *.
  replace (nsum i hs + (p - nsum i hs)) with p in HM by lia. replace (nsum j ws + (q - nsum j ws)) with q in HM by lia. exact HM.
Qed.
End Views.
End Parts.
