(** * Products of H-matrices: loops *)
From Coq Require Import Arith Lia List Bool Permutation Ring.
From Verif Require Import Fld Ord Prog Arr View Loop Line Spec Cluster Block BlockP Avector Amatrix AvectorP AmatrixP AmatrixP2 Rkmatrix RkSpec RkP Factor FactorSpec Chol CholSpec Qr QrSpec
  CbP CbmSpec CbmP CopSpec OrthoP SepP SepP2 Htrunc HtSpec HtP HtP2 HtP3 HtP4 Hmatrix HmSpec HmP HmP4 HlibSpec Harith HaP3 HaddSpec HmvP Hadd MgP MgP2 MgP3 HaddP HaddP2 HaddP3 HaddP4 HaddP5 HaddP6 Hmul HmulP HmulP2 HmulP3.
Import ListNotations.

Section Parts.
Context {K : fops} {G : ofops}.
Local Notation hmx := (hmatrix G).
Implicit Types (m : mem K) (h s t x y z : hmx) (l : list hmx) (D E X Y Z : nat -> nat -> K) (c rc cc : cptr G).

Lemma hlike_nodes h : forall h' s', hlike h h' -> In s' (hnodes h') -> exists s, In s (hnodes h) /\ hlike s s'.
Proof.
  induction h as [h IH] using hsize_ind. intros h' s' HL Hs. pose proof HL as HL0.
  destruct HL as [rc cc r r' ds|rc cc f ds|rc cc l l' rs cs ds HF].
  - cbn in Hs. destruct Hs as [<-|[]]. eexists. split; [left; reflexivity|exact HL0].
  - cbn in Hs. destruct Hs as [<-|[]]. eexists. split; [left; reflexivity|exact HL0].
  - cbn [hnodes] in Hs. destruct Hs as [<-|Hs]; [eexists; split; [left; reflexivity|exact HL0]|]. apply in_flat_map in Hs as (t' & Ht' & Hs).
    apply In_nth_error in Ht' as (k & Hk). destruct (nth_ex l k) as (t & Ht).
    { clear - HF Hk. revert k Hk. induction HF as [|a b l l' Hab HF IH]; intros [|k] Hk; cbn in *; try discriminate; [lia|]. specialize (IH k Hk). lia. }
    pose proof (BlockP.Forall2_nth _ _ _ HF _ _ _ Ht Hk) as HLt. destruct (IH l t eq_refl (nth_error_In _ _ Ht) t' s' HLt Hs) as (s & S1 & S2).
    exists s. split; [|exact S2]. eapply hnodes_son; [reflexivity|exact (nth_error_In _ _ Ht)|exact S1].
Qed.
Lemma hlike_sons h h' l' : hlike h h' -> hm_son h' = Some l' -> exists l, hm_son h = Some l /\ Forall2 hlike l l' /\ hm_rsons h' = hm_rsons h /\ hm_csons h' = hm_csons h.
Proof. intros HL E. destruct HL as [rc cc r r' ds|rc cc f ds|rc cc l l2 rs cs ds HF]; cbn in E; try discriminate. injection E as <-. exists l. auto. Qed.
Lemma hstd_like h h' : hlike h h' -> hstd h -> hstd h'.
Proof.
  intros HL HS s' l' Hs' El'. destruct (hlike_nodes h h' s' HL Hs') as (s & Hs & HLs). destruct (hlike_sons s s' l' HLs El') as (l & El & HF & Er & Ec).
  destruct (HS s l Hs El) as [Q1 Q2]. destruct (hlike_cl _ _ HLs) as [C1 C2]. rewrite Er, Ec, C1, C2. split.
  - rewrite <- Q1. clear - HF. induction HF; cbn; [reflexivity|congruence].
  - intros i j t' Hi Hj Ht'. destruct (nth_ex l (i + j * hm_rsons s)) as (t & Ht); [rewrite Q1; apply pos_lt; lia|].
    destruct (hlike_cl _ _ (BlockP.Forall2_nth _ _ _ HF _ _ _ Ht Ht')) as [T1 T2]. rewrite T1, T2. apply Q2; assumption.
Qed.

(** The parts of the operands *)
Lemma tparts (t : bool) m rc cc l rs cs ds X : let x := HM rc cc None None (Some l) rs cs ds in hrep m x X -> hstd x -> hpos x ->
  let R := trsons t x in let C := tcsons t x in let c1 := trc t x in let c2 := tcc t x in
  (0 < R /\ 0 < C /\ R = part_sons true c1 /\ C = part_sons true c2) /\
  ((forall i, i < R -> part_son (K := K) true c1 i = Ret (prt c1 i)) /\ (forall j, j < C -> part_son (K := K) true c2 j = Ret (prt c2 j))) /\
  (nsum R (fun i => csz (prt c1 i)) = csz c1 /\ nsum C (fun j => csz (prt c2 j)) = csz c2) /\
  ((forall i, i < R -> 0 < csz (prt c1 i)) /\ (forall j, j < C -> 0 < csz (prt c2 j))) /\
  forall i j, i < R -> j < C -> exists s D, nth_error l (tidx t R C i j) = Some s /\ trc t s = prt c1 i /\ tcc t s = prt c2 j /\ hrep m s D /\
    forall p q, tr t D p q = tr t X (nsum i (fun i => csz (prt c1 i)) + p) (nsum j (fun j => csz (prt c2 j)) + q).
Proof.
  intros x HR HS HP. pose proof HR as HRx. inversion_clear HRx as [| |? ? ? ? ? ? hs ws ? P1 P2 P3 P4 P5 P6 P7].
  destruct (std_parts m rc cc l rs cs ds hs ws X HS P1 P2 P3 P6 P7) as (ERs & ECs & HRl & HCl & HPt).
  assert (Hposr : forall i, i < rs -> 0 < csz (prt rc i)).
  { intros i Hi. destruct (nth_ex l (i + 0 * rs) ltac:(rewrite P3; apply pos_lt; lia)) as (u & Hu). destruct (HPt i 0 u Hi P2 Hu) as (Y1 & _). rewrite <- Y1.
    apply (HP u). eapply hnodes_son; [reflexivity|eapply nth_error_In, Hu|apply hnodes_self]. }
  assert (Hposc : forall j, j < cs -> 0 < csz (prt cc j)).
  { intros j Hj. destruct (nth_ex l (0 + j * rs) ltac:(rewrite P3; apply pos_lt; lia)) as (u & Hu). destruct (HPt 0 j u P1 Hj Hu) as (_ & Y1 & _). rewrite <- Y1.
    apply (HP u). eapply hnodes_son; [reflexivity|eapply nth_error_In, Hu|apply hnodes_self]. }
  assert (ER : nsum rs (fun i => csz (prt rc i)) = csz rc) by (rewrite <- P4; apply nsum_ext'; intros i Hi; symmetry; apply HRl, Hi).
  assert (EC : nsum cs (fun j => csz (prt cc j)) = csz cc) by (rewrite <- P5; apply nsum_ext'; intros j Hj; symmetry; apply HCl, Hj).
  assert (HRl' : forall i, i < rs -> part_son (K := K) true rc i = Ret (prt rc i)) by (intros i Hi; apply HRl, Hi).
  assert (HCl' : forall i, i < cs -> part_son (K := K) true cc i = Ret (prt cc i)) by (intros i Hi; apply HCl, Hi).
  destruct t; cbn [x trsons tcsons trc tcc hm_rc hm_cc hm_rsons hm_csons tidx].
  - split; [auto|]. split; [auto|]. split; [auto|]. split; [auto|]. intros i j Hi Hj. destruct (nth_ex l (j + i * rs) ltac:(rewrite P3; apply pos_lt; lia)) as (u & Hu).
    destruct (HPt j i u Hj Hi Hu) as (Y1 & Y2 & Y3). exists u. eexists. split; [exact Hu|]. split; [exact Y2|]. split; [exact Y1|]. split; [exact Y3|]. intros p q. reflexivity.
  - split; [auto|]. split; [auto|]. split; [auto|]. split; [auto|]. intros i j Hi Hj. destruct (nth_ex l (i + j * rs) ltac:(rewrite P3; apply pos_lt; lia)) as (u & Hu).
    destruct (HPt i j u Hi Hj Hu) as (Y1 & Y2 & Y3). exists u. eexists. split; [exact Hu|]. split; [exact Y1|]. split; [exact Y2|]. split; [exact Y3|]. intros p q. reflexivity.
Qed.

(** Whether a cluster is split *)
Lemma split_flag c : let sp := negb (cp_eqb (prt c 0) c) in
  part_sons sp c = part_sons true c /\ (forall i, part_son (K := K) sp c i = part_son true c i) /\ sp || (part_sons true c =? 1) = true /\
  (forall i, part_son (K := K) true c i = Ret (prt c i) -> (if sp then lift (K := K) (cp_son c i) else Ret c) = Ret (prt c i)).
Proof.
  intros sp. unfold sp, prt, part_sons, part_son. clear sp. destruct (Nat.ltb_spec 0 (cp_sons c)) as [Hs|Hs].
  - assert (E : cp_eqb (match cp_son c 0 with Ok t => t | Err _ => c end) c = false).
    { unfold cp_son. unfold cp_sons in Hs. destruct (c_sons (cp_c c)) as [|u v] eqn:Eu; [cbn in Hs; lia|]. cbn [nth_error]. unfold cp_eqb. cbn [cp_path]. destruct list_eq_dec as [E|]; [|reflexivity]. exfalso.
      apply (f_equal (@length nat)) in E. cbn in E. lia. }
    rewrite E. cbn [negb andb orb]. auto.
  - rewrite cp_eqb_refl. cbn [negb andb orb]. rewrite (Nat.eqb_refl 1). auto.
Qed.
End Parts.

Section Loops.
Context {K : fops} {G : ofops} (L : field_laws K).
Notation RL := (fl_ring K L).
Add Ring KringHmul4 : (rl_ring K (fl_ring K L)).
Local Notation hmx := (hmatrix G).
Implicit Types (m : mem K) (h s t x y z : hmx) (l : list hmx) (D E X Y Z : nat -> nat -> K) (c rc cc : cptr G).

Lemma wp_mulrow (xt yt : bool) (go : hmx -> hmx -> hmx -> prog K hmx) lx ly R M C i k s m alpha D X Y (mh : nat -> nat) :
  (forall j, j < M -> exists a b, nth_error lx (tidx xt R M i j) = Some a /\ nth_error ly (tidx yt M C j k) = Some b /\
    forall s1 m1 E1, hlike s s1 -> moves m (hfp s) (hfp s1) m1 -> hrep m1 s1 E1 -> hmut m1 s1 ->
      wp TT TT (go a b s1) m1 (hpost m1 s1 (fun p q => E1 p q + alpha * sum (mh j) (fun (c : nat) => X p (nsum j mh + c)%nat * Y (nsum j mh + c)%nat q))%F)) ->
  hrep m s D -> hmut m s ->
  wp TT TT (mulrow xt yt (Some (map go lx)) (Some ly) R M C i k s) m (hpost m s (fun p q => D p q + alpha * sum (nsum M mh) (fun (c : nat) => X p c * Y c q))%F).
Proof.
  intros HB HR HU. unfold mulrow. apply (wp_forS (fun j s1 m1 => hpost m s (fun p q => D p q + alpha * sum (nsum j mh) (fun (c : nat) => X p c * Y c q))%F s1 m1)).
  - eapply hpost_ext; [apply hpost_refl; eassumption|]. intros p q _ _. cbn [nsum sum]. ring.
  - intros j s1 m1 [_ Hj] HP. cbn in Hj. destruct (HB j Hj) as (a & b & Ha & Hb & Hgo). pose proof HP as (P1 & P2 & P3 & P4).
    apply wp_bind. rewrite (sget_map _ _ _ _ Ha). cbn [wp]. apply wp_bind. rewrite (sget_some _ _ _ Hb). cbn [wp].
    eapply wp_conseq; [apply (Hgo s1 m1 _ P3 P4 P1 P2)|]. cbv beta. intros s2 m2 HP2. eapply hpost_ext; [eapply hpost_trans; [exact HP|exact HP2]|].
    intros p q _ _. cbv beta. cbn [nsum]. rewrite (sum_app RL). ring.
  - intros s1 m1 HP. exact HP.
Qed.

Lemma wp_mulsons (xt yt : bool) (rec : option (list (hmx -> hmx -> prog K hmx))) ly R M C rc cc l ds (hs ws : nat -> nat) D E m (Q : hmx -> mem K -> Prop) :
  0 < R -> 0 < C -> length l = R * C -> nsum R hs = csz rc -> nsum C ws = csz cc ->
  (forall i j s, i < R -> j < C -> nth_error l (i + j * R) = Some s -> hrows s = hs i /\ hcols s = ws j) ->
  (forall i j s, i < R -> j < C -> nth_error l (i + j * R) = Some s -> hrep m s (fun p q => D (nsum i hs + p) (nsum j ws + q))) ->
  hmut m (HM rc cc None None (Some l) R C ds) ->
  (forall i j s F1 m1, i < R -> j < C -> nth_error l (i + j * R) = Some s -> moves m (fpl l) F1 m1 -> hrep m1 s (fun p q => D (nsum i hs + p) (nsum j ws + q)) -> hmut m1 s ->
     wp TT TT (mulrow xt yt rec ly R M C i j s) m1 (hpost m1 s (fun p q => E (nsum i hs + p) (nsum j ws + q)))) ->
  (forall h' m', hpost m (HM rc cc None None (Some l) R C ds) E h' m' -> Q h' m') ->
  wp TT TT (mulsons xt yt rec ly R M C (HM rc cc None None (Some l) R C ds)) m Q.
Proof.
  intros R0 C0 HL E1 E2 HS HR HU HB HQ. unfold mulsons. cbn [hm_son]. apply wp_bind.
  set (V := fun k i => if i <? k then partof R hs ws E i else partof R hs ws D i).
  set (INV := fun k l' m1 => forest m l l' (V k) m1 /\ forall p, k <= p -> nth_error l' p = nth_error l p).
  apply (wp_forS (fun j l' m1 => INV (j * R) l' m1)).
  - split; [|reflexivity]. eapply forest_ext; [eapply forest_sons; eassumption|]. intros k a b _. reflexivity.
  - intros j l1 m1 [_ Hj] HI. cbn in Hj. apply (wp_forS (fun i l' m1 => INV (i + j * R) l' m1)).
    + exact HI.
    + intros i l' m2 [_ Hi] [HF Hn]. cbn in Hi. assert (Hp : i + j * R < R * C) by (apply pos_lt; lia). destruct (nth_ex l (i + j * R) ltac:(lia)) as (s & Hs).
      assert (Hs' : nth_error l' (i + j * R) = Some s) by (rewrite Hn by lia; exact Hs).
      apply wp_bind. rewrite (sget_some _ _ _ Hs'). cbn [wp]. apply wp_bind.
      destruct (forest_get _ _ _ _ _ _ _ HF Hs') as (s0 & _ & _ & B2 & B3).
      eapply wp_conseq; [eapply (HB i j); [exact Hi|exact Hj|exact Hs|apply HF| |exact B3]|].
      { eapply hrep_ext; [exact B2|]. intros p q _ _. unfold V. rewrite (proj2 (Nat.ltb_ge _ _)) by lia. rewrite partof_at by lia. reflexivity. }
      cbv beta. intros s' m3 HP. cbn [wp]. split.
      * eapply forest_ext; [eapply (forest_step _ _ _ _ _ _ _ _ _ _ HF Hs' HP)|]. intros k a b _. unfold V. destruct (Nat.eqb_spec k (i + j * R)) as [->|Hne].
        -- rewrite (proj2 (Nat.ltb_lt _ _)) by lia. rewrite partof_at by lia. reflexivity.
        -- destruct (Nat.ltb_spec k (S i + j * R)), (Nat.ltb_spec k (i + j * R)); try lia; reflexivity.
      * intros p Hp'. rewrite lupd_nth. destruct (Nat.eqb_spec p (i + j * R)); [lia|]. cbn [andb]. apply Hn. lia.
    + intros l' m2 HI2. exact HI2.
  - intros l' m1 [HF _]. cbn [Nat.add] in HF. cbn [wp set_sons]. apply HQ. eapply forest_end with (hs := hs) (ws := ws); try eassumption.
    eapply forest_ext; [exact HF|]. intros k a b Hk. rewrite (fo_len _ _ _ _ _ HF), HL in Hk. unfold V. rewrite (proj2 (Nat.ltb_lt _ _)) by lia. reflexivity.
Qed.

(** Parts of a dense matrix *)
Lemma moves_keep m (F : addr -> Prop) m' : moves m F F m' -> keeps F m m'.
Proof.
  intros (M1 & _ & _ & M4 & M5). split; [exact M1|]. intros a Ha. destruct (Nat.lt_ge_cases (fst a) (next m)) as [Hl|Hl].
  - apply M4; assumption.
  - rewrite (get_fresh m a Hl). apply M5; [right; exact Hl|exact Ha].
Qed.
Lemma wp_mulparts (xt yt : bool) (rec : option (list (hmx -> hmx -> prog K hmx))) ly R M C rc cc (rsp csp : bool) zf D E m (Q : unit -> mem K -> Prop) :
  let hs := fun i => csz (prt rc i) in let ws := fun j => csz (prt cc j) in
  csp || (C =? 1) = true -> rsp || (R =? 1) = true ->
  (forall i, i < R -> (if rsp then lift (K := K) (cp_son rc i) else Ret rc) = Ret (prt rc i)) -> (forall j, j < C -> (if csp then lift (K := K) (cp_son cc j) else Ret cc) = Ret (prt cc j)) ->
  nsum R hs = csz rc -> nsum C ws = csz cc -> (forall i, i < R -> 0 < hs i) -> (forall j, j < C -> 0 < ws j) ->
  mwf zf -> mrows zf = csz rc -> mcols zf = csz cc -> mval m zf D ->
  (forall i j m1, i < R -> j < C -> keeps (inm zf) m m1 -> let s : hmx := HM (prt rc i) (prt cc j) None (Some (subm zf (nsum i hs) (hs i) (nsum j ws) (ws j))) None 0 0 0 in
     hrep m1 s (fun p q => D (nsum i hs + p) (nsum j ws + q)) -> hmut m1 s ->
     wp TT TT (mulrow xt yt rec ly R M C i j s) m1 (hpost m1 s (fun p q => E (nsum i hs + p) (nsum j ws + q)))) ->
  (forall m', mval m' zf E -> keeps (inm zf) m m' -> Q tt m') ->
  wp TT TT (mulparts xt yt rec ly R M C rc cc rsp csp zf) m Q.
Proof.
  intros hs ws A1 A2 A3 A4 A5 A6 A7 A8 HW Rz Cz HV HB HQ. unfold mulparts. apply wp_bind, wp_assert; [exact A1|]. apply wp_bind, wp_assert; [exact A2|]. apply wp_bind.
  set (G0 := fun j i p q => if q <? nsum j ws then E p q else if (q <? nsum (S j) ws) && (p <? nsum i hs) then E p q else D p q).
  apply (wp_forS (fun j coff m1 => coff = nsum j ws /\ mval m1 zf (G0 j 0) /\ keeps (inm zf) m m1)).
  - split; [reflexivity|]. split; [|apply keeps_refl]. eapply mval_ext; [exact HV|]. intros p q _ _. unfold G0. cbn [nsum]. rewrite andb_false_r. reflexivity.
  - intros j coff m1 [_ Hj] (-> & V1 & K1). cbn in Hj. apply wp_bind. rewrite (A4 j Hj). cbn [wp]. apply wp_bind.
    apply (wp_forS (fun i roff m1 => roff = nsum i hs /\ mval m1 zf (G0 j i) /\ keeps (inm zf) m m1)).
    + auto.
    + intros i roff m2 [_ Hi] (-> & V2 & K2). cbn in Hi. apply wp_bind. rewrite (A3 i Hi). cbn [wp].
      pose proof (nsum_in hs i R Hi) as HHr. pose proof (nsum_in ws j C Hj) as HHc.
      apply wp_bind, wp_init_sub_amatrix; [fold (hs i); lia|fold (ws j); lia|]. fold (hs i) (ws j). apply wp_bind.
      set (s := HM (prt rc i) (prt cc j) None (Some (subm zf (nsum i hs) (hs i) (nsum j ws) (ws j))) None 0 0 0 : hmx).
      assert (VS : mval m2 (subm zf (nsum i hs) (hs i) (nsum j ws) (ws j)) (fun p q => D (nsum i hs + p) (nsum j ws + q))).
      { eapply mval_ext; [eapply mval_subm; [exact V2|lia|lia]|]. intros p q Hp Hq. cbn in Hp, Hq. unfold G0. rewrite (proj2 (Nat.ltb_ge _ (nsum j ws))), (proj2 (Nat.ltb_ge _ (nsum i hs))) by lia. rewrite andb_false_r. reflexivity. }
      assert (US : hmut m2 s) by (constructor; [apply A7, Hi|apply A8, Hj|apply mwf_subm; [exact HW|lia]]).
      eapply wp_conseq; [apply (HB i j m2 Hi Hj K2); [constructor; [reflexivity|reflexivity|exact VS]|exact US]|]. cbv beta. fold s. intros s' m3 (P1 & P2 & P3 & P4).
      assert (s' = s) by (inversion P3; reflexivity). subst s'. unfold s in P1, P4. inversion_clear P1 as [|? ? ? ? ? _ _ V3|].
      assert (K3 : keeps (inm (subm zf (nsum i hs) (hs i) (nsum j ws) (ws j))) m2 m3) by (apply moves_keep; eapply moves_ext; [| |exact P4]; intros a; apply hfp_full).
      unfold uninit_amatrix. cbn [subm mown bind wp]. split; [reflexivity|]. split.
      * eapply mval_ext; [eapply (mval_subm_back m2 m3 zf (G0 j i) _ (nsum i hs) (hs i) (nsum j ws) (ws j)); [exact HW|exact V2|lia|lia|exact V3|exact K3]|].
        intros p q Hp Hq. unfold G0. cbn [nsum].
        destruct (Nat.leb_spec (nsum i hs) p), (Nat.ltb_spec p (nsum i hs + hs i)), (Nat.leb_spec (nsum j ws) q), (Nat.ltb_spec q (nsum j ws + ws j)), (Nat.ltb_spec q (nsum j ws)), (Nat.ltb_spec p (nsum i hs)); cbn [andb]; try lia; try reflexivity.
        f_equal; lia.
      * eapply keeps_trans; [exact K2|]. eapply keeps_mono; [|exact K3]. intros a Ha. eapply (inm_subm zf (nsum i hs) (hs i) (nsum j ws) (ws j)); [lia|lia|exact Ha].
    + intros roff m2 (-> & V2 & K2). cbn [Nat.add] in *. apply wp_bind, wp_assert; [apply Nat.eqb_eq, A5|]. cbn [wp]. split; [reflexivity|]. split; [|exact K2].
      eapply mval_ext; [exact V2|]. intros p q Hp Hq. unfold G0. rewrite Rz in Hp. rewrite A5. cbn [nsum].
      rewrite (proj2 (Nat.ltb_lt p (csz rc))) by exact Hp. rewrite andb_true_r, andb_false_r.
      destruct (Nat.ltb_spec q (nsum j ws)), (Nat.ltb_spec q (nsum j ws + ws j)); try lia; reflexivity.
  - intros coff m1 (-> & V1 & K1). cbn [Nat.add] in *. apply wp_assert; [apply Nat.eqb_eq, A6|]. apply HQ; [|exact K1]. eapply mval_ext; [exact V1|]. intros p q Hp Hq. unfold G0.
    rewrite Cz in Hq. rewrite A6. rewrite (proj2 (Nat.ltb_lt q (csz cc))) by exact Hq. reflexivity.
Qed.
End Loops.
