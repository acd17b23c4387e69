(** * Construction of triangular meshes: the lists of the builder *)
From Coq Require Import Arith Lia List Bool.
From Verif Require Import Fld Ord Prog Arr HmSpec Tri2d Tri2dSpec Tri2dP Tri2dP2 Tri2db Tri2dbSpec Tri2dbP.
Import ListNotations.

Lemma rok_fold {A S} (Inv : list A -> S -> Prop) (body : A -> S -> res S) l s (Q : S -> Prop) :
  Inv [] s ->
  (forall pre a s, In a l -> Inv pre s -> rok (body a s) (Inv (a :: pre))) ->
  (forall s, Inv (rev l) s -> Q s) -> rok (rfold body l s) Q.
Proof.
  intros H0 Hb HQ.
  assert (G : forall l' pre s, (forall a, In a l' -> In a l) -> rev pre ++ l' = l -> Inv pre s -> rok (rfold body l' s) Q).
  { induction l' as [|a l' IH]; intros pre s' Hin E Hi; cbn [rfold].
    - cbn. apply HQ. rewrite <- E, app_nil_r, rev_involutive. exact Hi.
    - apply rok_bind. eapply rok_conseq; [apply Hb; [apply Hin; left; reflexivity|exact Hi]|].
      intros s1 Hs1. apply (IH (a :: pre)); [intros b Hb'; apply Hin; right; exact Hb'| |exact Hs1].
      cbn [rev]. rewrite <- app_assoc. exact E. }
  apply (G l [] s); [auto|reflexivity|exact H0].
Qed.

Definition srt (a b : nat) : nat * nat := if b <? a then (b, a) else (a, b).
Lemma srt_joins a b : joins (srt a b) a b.
Proof. unfold srt. destruct (b <? a); [right|left]; reflexivity. Qed.
Lemma srt_lt a b : a <> b -> fst (srt a b) < snd (srt a b).
Proof. unfold srt. destruct (Nat.ltb_spec b a); cbn; lia. Qed.

Section Lists.
  Context {K : Type}.
  Implicit Types tb : builder K.

  Definition ends_of (e : edgeentry) : nat * nat := (ee_v0 e, ee_v1 e).

  (** The list structure of the edges *)
  Record linv tb : Prop := LI {
    li_n : tb_edges tb = length (tb_heap tb);
    li_e : forall p e, nth_error (tb_heap tb) p = Some e ->
      ee_name e = p /\ ee_v0 e < ee_v1 e /\ ee_v1 e < tb_vertices tb;
    li_u : forall p q e f, nth_error (tb_heap tb) p = Some e -> nth_error (tb_heap tb) q = Some f ->
      ends_of e = ends_of f -> p = q;
    li_l : exists lst, aval (tb_elist tb) (tb_vertices tb) lst /\
      forall v p, v < tb_vertices tb ->
        (In p (lst v) <-> exists e, nth_error (tb_heap tb) p = Some e /\ ee_v0 e = v)
  }.

  Lemma search_ok (h : list edgeentry) l v1 : (forall p, In p l -> exists e, nth_error h p = Some e) ->
    exists o, search h l v1 = Ok o /\
    match o with
    | Some p => In p l /\ exists e, nth_error h p = Some e /\ ee_v1 e = v1
    | None => forall p e, In p l -> nth_error h p = Some e -> ee_v1 e <> v1
    end.
  Proof.
    induction l as [|p l IH]; intros H; cbn [search].
    - exists None. split; [reflexivity|]. intros p e [].
    - destruct (H p ltac:(left; reflexivity)) as (e & E). unfold hget. rewrite E. cbn [rbind].
      destruct (Nat.eqb_spec (ee_v1 e) v1) as [Ev|Nv].
      + exists (Some p). split; [reflexivity|]. split; [left; reflexivity|eauto].
      + destruct IH as (o & Eo & Ho); [intros q Hq; apply H; right; exact Hq|].
        exists o. split; [exact Eo|]. destruct o as [q|].
        * destruct Ho as [A B]. split; [right; exact A|exact B].
        * intros q f [<-|Hq] Hf; [congruence|eapply Ho; eassumption].
  Qed.

  Definition same_rest tb tb' : Prop :=
    tb_x tb' = tb_x tb /\ tb_tlist tb' = tb_tlist tb /\ tb_vertices tb' = tb_vertices tb /\
    tb_triangles tb' = tb_triangles tb.

  Lemma find_ok tb a b : linv tb -> a < tb_vertices tb -> b < tb_vertices tb -> a <> b ->
    exists p tb' l, find_edgeentry tb a b = Ok (p, tb') /\ linv tb' /\ same_rest tb tb' /\
      tb_heap tb' = tb_heap tb ++ l /\ (exists e, nth_error (tb_heap tb') p = Some e /\ ends_of e = srt a b) /\
      (l = [] \/ p = length (tb_heap tb) /\ exists e, l = [e] /\ ee_neighbours e = 0).
  Proof.
    intros [Hn He Hu (lst & Al & Hl)] Ha Hb Hab. unfold find_edgeentry.
    destruct (Nat.ltb_spec a (tb_vertices tb)); [|lia]. cbn [rassert rbind].
    destruct (Nat.ltb_spec b (tb_vertices tb)); [|lia]. cbn [rassert rbind].
    change (if b <? a then (b, a) else (a, b)) with (srt a b).
    pose proof (srt_lt a b Hab) as Hlt.
    assert (Hv : snd (srt a b) < tb_vertices tb) by (unfold srt; destruct (b <? a); assumption).
    destruct (srt a b) as [v0 v1]. cbn [fst snd] in Hlt, Hv.
    rewrite (aval_get _ _ _ _ Al) by lia. cbn [rbind].
    destruct (search_ok (tb_heap tb) (lst v0) v1) as (o & -> & Ho).
    { intros p Hp. apply Hl in Hp; [|lia]. destruct Hp as (e & E & _). eauto. }
    cbn [rbind]. destruct o as [p|].
    - destruct Ho as (Hin & e & Ee & Ev). apply Hl in Hin; [|lia]. destruct Hin as (e' & Ee' & Ev').
      assert (e' = e) by congruence. subst e'.
      exists p, tb, []. split; [reflexivity|]. split; [constructor; eauto|].
      split; [unfold same_rest; auto|]. split; [rewrite app_nil_r; reflexivity|].
      split; [|left; reflexivity]. exists e. split; [exact Ee|]. unfold ends_of. congruence.
    - pose proof (rok_aset (tb_elist tb) (tb_vertices tb) lst v0 (length (tb_heap tb) :: lst v0)
        (fun a' => aval a' (tb_vertices tb) (afupd lst v0 (length (tb_heap tb) :: lst v0))) Al ltac:(lia) ltac:(auto)) as HA.
      apply rok_inv in HA. destruct HA as (el & -> & Ael). cbn [rbind].
      set (en := EE (tb_edges tb) v0 v1 0).
      exists (length (tb_heap tb)). eexists. exists [en].
      split; [reflexivity|].
      assert (Hx : forall q f, nth_error (tb_heap tb ++ [en]) q = Some f ->
        nth_error (tb_heap tb) q = Some f \/ q = length (tb_heap tb) /\ f = en).
      { intros q f Hq. destruct (Nat.lt_ge_cases q (length (tb_heap tb))) as [Hlq|Hge].
        - rewrite nth_error_app1 in Hq by exact Hlq. auto.
        - rewrite nth_error_app2 in Hq by exact Hge. right.
          destruct (q - length (tb_heap tb)) as [|d] eqn:Ed; cbn in Hq; [|destruct d; discriminate].
          injection Hq as <-. split; [lia|reflexivity]. }
      assert (Hfresh : forall q f, nth_error (tb_heap tb) q = Some f -> ends_of f <> (v0, v1)).
      { intros q f Hq E. unfold ends_of in E. injection E as E0 E1.
        apply (Ho q f); [apply Hl; [lia|eauto]|exact Hq|exact E1]. }
      split; [|split; [unfold same_rest; auto|split; [reflexivity|split]]].
      + constructor; cbn [tb_edges tb_heap tb_vertices tb_elist].
        * rewrite app_length, Hn. cbn. lia.
        * intros q f Hq. destruct (Hx q f Hq) as [Hq'|[-> ->]]; [apply He; exact Hq'|].
          cbn. split; [exact Hn|]. split; assumption.
        * intros q r f g Hq Hr E. destruct (Hx q f Hq) as [Hq'|[-> ->]], (Hx r g Hr) as [Hr'|[-> ->]].
          -- eapply Hu; eassumption.
          -- destruct (Hfresh q f Hq'). exact E.
          -- destruct (Hfresh r g Hr'). symmetry. exact E.
          -- reflexivity.
        * exists (afupd lst v0 (length (tb_heap tb) :: lst v0)). split; [exact Ael|].
          intros v q Hvv. unfold afupd.
          assert (Hnew : nth_error (tb_heap tb ++ [en]) (length (tb_heap tb)) = Some en).
          { rewrite nth_error_app2 by lia. rewrite Nat.sub_diag. reflexivity. }
          destruct (Nat.eqb_spec v v0) as [->|Nv].
          -- split.
             ++ intros [<-|Hq]; [exists en; split; [exact Hnew|reflexivity]|].
                apply Hl in Hq; [|lia]. destruct Hq as (f & Ef & Ev). exists f. split; [|exact Ev].
                rewrite nth_error_app1; [exact Ef|]. apply nth_error_Some. congruence.
             ++ intros (f & Ef & Ev). destruct (Hx q f Ef) as [Hq'|[-> _]]; [right|left; reflexivity].
                apply Hl; [lia|eauto].
          -- rewrite Hl by exact Hvv. split.
             ++ intros (f & Ef & Ev). exists f. split; [|exact Ev].
                rewrite nth_error_app1; [exact Ef|]. apply nth_error_Some. congruence.
             ++ intros (f & Ef & Ev). destruct (Hx q f Ef) as [Hq'|[_ ->]]; [eauto|]. cbn in Ev. congruence.
      + exists en. cbn [tb_heap]. split; [|reflexivity].
        rewrite nth_error_app2 by lia. rewrite Nat.sub_diag. reflexivity.
      + right. split; [reflexivity|]. exists en. auto.
  Qed.

  (** Incrementing a counter *)
  Definition addnb (d : nat -> nat) (h h' : list edgeentry) : Prop :=
    length h' = length h /\ forall p e, nth_error h p = Some e ->
      nth_error h' p = Some (EE (ee_name e) (ee_v0 e) (ee_v1 e) (ee_neighbours e + d p)).

  Lemma addnb_inv d h h' p e' : addnb d h h' -> nth_error h' p = Some e' ->
    exists e, nth_error h p = Some e /\ e' = EE (ee_name e) (ee_v0 e) (ee_v1 e) (ee_neighbours e + d p).
  Proof.
    intros [HL H] E. destruct (nth_error h p) as [e|] eqn:Eh.
    - exists e. split; [reflexivity|]. specialize (H p e Eh). congruence.
    - apply nth_error_None in Eh. assert (p < length h') by (apply nth_error_Some; congruence). lia.
  Qed.

  Lemma bump_ok h h0 d p : addnb d h0 h -> p < length h0 ->
    exists h', bump h p = Ok h' /\ addnb (fun q => d q + (if p =? q then 1 else 0)) h0 h'.
  Proof.
    intros [HL H] Hp. unfold bump, hget.
    destruct (nth_error h0 p) as [e0|] eqn:E0; [|apply nth_error_None in E0; lia].
    pose proof (H p e0 E0) as Ep. rewrite Ep. cbn [rbind]. eexists. split; [reflexivity|].
    split; [rewrite lupd_length; exact HL|]. intros q e Eq. rewrite lupd_nth.
    assert (q < length h) by (rewrite HL; apply nth_error_Some; congruence).
    destruct (Nat.eqb_spec q p) as [->|N].
    - destruct (Nat.ltb_spec p (length h)); [|lia]. cbn [andb].
      rewrite Nat.eqb_refl. assert (e0 = e) by congruence. subst e0. cbn. f_equal. f_equal. lia.
    - cbn [andb]. rewrite (H q e Eq). destruct (Nat.eqb_spec p q); [congruence|]. rewrite Nat.add_0_r. reflexivity.
  Qed.

  Lemma linv_addnb tb d h' : linv tb -> addnb d (tb_heap tb) h' -> forall tl n,
    linv (TB (tb_x tb) h' (tb_elist tb) tl (tb_vertices tb) (tb_edges tb) n).
  Proof.
    intros [Hn He Hu (lst & Al & Hl)] HA tl n. pose proof HA as [HL H].
    constructor; cbn [tb_edges tb_heap tb_vertices tb_elist].
    - congruence.
    - intros p e E. destruct (addnb_inv _ _ _ _ _ HA E) as (e0 & E0 & ->). cbn. apply He. exact E0.
    - intros p q e f E F EE. destruct (addnb_inv _ _ _ _ _ HA E) as (e0 & E0 & ->).
      destruct (addnb_inv _ _ _ _ _ HA F) as (f0 & F0 & ->). eapply Hu; [exact E0|exact F0|exact EE].
    - exists lst. split; [exact Al|]. intros v p Hv. rewrite Hl by exact Hv. split.
      + intros (e & E & Ev). eexists. split; [apply H; exact E|exact Ev].
      + intros (e & E & Ev). destruct (addnb_inv _ _ _ _ _ HA E) as (e0 & E0 & ->). eauto.
  Qed.

  (** ** The invariant of the builder *)
  Definition uses (n : nat) (pe : nat -> nat -> nat) (p : nat) : nat :=
    nsum n (fun j => nsum 3 (fun k => if pe j k =? p then 1 else 0)).

  Definition edge_at tb (p a b : nat) : Prop :=
    exists e, nth_error (tb_heap tb) p = Some e /\ ends_of e = srt a b.

  Definition tri_at tb (pe : nat -> nat -> nat) (j : nat) (t : nat * nat * nat) : Prop :=
    edge_at tb (pe j 0) (snd (fst t)) (snd t) /\ edge_at tb (pe j 1) (snd t) (fst (fst t)) /\
    edge_at tb (pe j 2) (fst (fst t)) (snd (fst t)).

  Record binv (tris : list (nat * nat * nat)) (pe : nat -> nat -> nat) tb : Prop := BI {
    bi_l : linv tb;
    bi_n : tb_triangles tb = length tris;
    bi_t : tb_tlist tb = rev (map (fun j => TE j (pe j 0) (pe j 1) (pe j 2)) (seq 0 (length tris)));
    bi_e : forall j t, nth_error tris j = Some t -> tri_at tb pe j t;
    bi_u : forall p e, nth_error (tb_heap tb) p = Some e ->
      ee_neighbours e = uses (length tris) pe p /\ 1 <= ee_neighbours e
  }.

  Lemma nsum_zero n (f : nat -> nat) : (forall i, i < n -> f i = 0) -> nsum n f = 0.
  Proof. induction n as [|n IH]; intros H; cbn; [reflexivity|]. rewrite IH, H by auto. reflexivity. Qed.

  Lemma add_ok tris pe tb v0 v1 v2 : binv tris pe tb ->
    v0 < tb_vertices tb -> v1 < tb_vertices tb -> v2 < tb_vertices tb -> v0 <> v1 -> v1 <> v2 -> v2 <> v0 ->
    exists tb' pe', addtriangle_tri2dbuilder tb v0 v1 v2 = Ok tb' /\ binv (tris ++ [(v0, v1, v2)]) pe' tb' /\
      tb_x tb' = tb_x tb /\ tb_vertices tb' = tb_vertices tb.
  Proof.
    intros [BL Bn Bt Be Bu] L0 L1 L2 N1 N2 N3. unfold addtriangle_tri2dbuilder.
    destruct (find_ok tb v0 v1 BL L0 L1 N1) as (p01 & tb1 & l1 & -> & Li1 & (X1 & T1 & V1 & M1) & H1 & P1 & C1).
    cbn [rbind]. rewrite <- V1 in L0, L1, L2.
    destruct (find_ok tb1 v1 v2 Li1 L1 L2 N2) as (p12 & tb2 & l2 & -> & Li2 & (X2 & T2 & V2 & M2) & H2 & P2 & C2).
    cbn [rbind]. rewrite <- V2 in L0, L1, L2.
    destruct (find_ok tb2 v2 v0 Li2 L2 L0 N3) as (p20 & tb3 & l3 & -> & Li3 & (X3 & T3 & V3 & M3) & H3 & P3 & C3).
    cbn [rbind].
    assert (UP : forall (h l : list edgeentry) p e, nth_error h p = Some e -> nth_error (h ++ l) p = Some e).
    { intros h l p e E. rewrite nth_error_app1; [exact E|]. apply nth_error_Some. congruence. }
    destruct P1 as (e1 & P1 & E1). destruct P2 as (e2 & P2 & E2). destruct P3 as (e3 & P3 & E3).
    assert (P2' : nth_error (tb_heap tb3) p12 = Some e2) by (rewrite H3; apply UP; exact P2).
    assert (P1' : nth_error (tb_heap tb3) p01 = Some e1) by (rewrite H3, H2; apply UP, UP; exact P1).
    assert (B12 : p12 < length (tb_heap tb3)) by (apply nth_error_Some; congruence).
    assert (B01 : p01 < length (tb_heap tb3)) by (apply nth_error_Some; congruence).
    assert (B20 : p20 < length (tb_heap tb3)) by (apply nth_error_Some; congruence).
    assert (A0 : addnb (fun _ => 0) (tb_heap tb3) (tb_heap tb3)).
    { split; [reflexivity|]. intros p e E. rewrite Nat.add_0_r, E. destruct e; reflexivity. }
    destruct (bump_ok _ _ _ p12 A0 B12) as (h1 & -> & A1). cbn [rbind].
    destruct (bump_ok _ _ _ p20 A1 B20) as (h2 & -> & A2). cbn [rbind].
    destruct (bump_ok _ _ _ p01 A2 B01) as (h3 & -> & A3). cbn [rbind].
    set (n := length tris) in *.
    set (pe' := fun j k => if j =? n then match k with 0 => p12 | 1 => p20 | _ => p01 end else pe j k).
    assert (OLD : forall j k, j < n -> pe' j k = pe j k).
    { intros j k Hj. unfold pe'. destruct (Nat.eqb_spec j n); [lia|reflexivity]. }
    assert (NEW : forall k, pe' n k = match k with 0 => p12 | 1 => p20 | _ => p01 end).
    { intros k. unfold pe'. rewrite Nat.eqb_refl. reflexivity. }
    assert (PB : forall j k, j < n -> k < 3 -> pe j k < length (tb_heap tb)).
    { intros j k Hj Hk. destruct (nth_error tris j) as [t|] eqn:Et; [|apply nth_error_None in Et; unfold n in Hj; lia].
      destruct (Be j t Et) as ((f0 & F0 & _) & (f1 & F1 & _) & (f2 & F2 & _)).
      destruct k as [|[|[|k]]]; [..|lia]; apply nth_error_Some; congruence. }
    assert (US : forall p, uses (S n) pe' p = uses n pe p + ((if p12 =? p then 1 else 0) + (if p20 =? p then 1 else 0) + (if p01 =? p then 1 else 0))).
    { intros p. unfold uses. cbn [nsum]. f_equal.
      - apply nsum_eq. intros j Hj. rewrite !OLD by exact Hj. reflexivity.
      - rewrite !NEW. reflexivity. }
    assert (Z : forall p, length (tb_heap tb) <= p -> uses n pe p = 0).
    { intros p Hp. unfold uses. apply nsum_zero. intros j Hj. apply nsum_zero. intros k Hk.
      specialize (PB j k Hj Hk). destruct (Nat.eqb_spec (pe j k) p); [lia|reflexivity]. }
    assert (HH : tb_heap tb3 = tb_heap tb ++ (l1 ++ l2 ++ l3)) by (rewrite H3, H2, H1, <- !app_assoc; reflexivity).
    assert (NB : forall p e, nth_error (tb_heap tb3) p = Some e -> length (tb_heap tb) <= p ->
      ee_neighbours e = 0 /\ (p = p01 \/ p = p12 \/ p = p20)).
    { intros p e Ep Hp.
      assert (S1 : forall (h l : list edgeentry) q, (l = [] \/ q = length h /\ exists e, l = [e] /\ ee_neighbours e = 0) ->
        forall p e, nth_error (h ++ l) p = Some e -> nth_error h p = Some e \/ p = q /\ ee_neighbours e = 0).
      { intros h l q [-> |[-> (g & -> & Eg)]] p' e' E'.
        - rewrite app_nil_r in E'. auto.
        - destruct (Nat.lt_ge_cases p' (length h)) as [Hlt|Hge].
          + rewrite nth_error_app1 in E' by exact Hlt. auto.
          + rewrite nth_error_app2 in E' by exact Hge. right.
            destruct (p' - length h) as [|d] eqn:Ed; cbn in E'; [|destruct d; discriminate].
            injection E' as <-. split; [lia|exact Eg]. }
      rewrite H3 in Ep. destruct (S1 _ _ _ C3 p e Ep) as [Ep2|[-> Hz]]; [|auto].
      rewrite H2 in Ep2. destruct (S1 _ _ _ C2 p e Ep2) as [Ep1|[-> Hz]]; [|auto].
      rewrite H1 in Ep1. destruct (S1 _ _ _ C1 p e Ep1) as [Ep0|[-> Hz]]; [|auto].
      assert (p < length (tb_heap tb)) by (apply nth_error_Some; congruence). lia. }
    eexists. exists pe'. split; [reflexivity|]. split; [|cbn; split; congruence].
    assert (Ln : length (tris ++ [(v0, v1, v2)]) = S n) by (rewrite app_length; cbn; unfold n; lia).
    constructor; cbn [tb_triangles tb_tlist tb_heap]; rewrite ?Ln.
    - eapply linv_addnb; [exact Li3|exact A3].
    - rewrite M3, M2, M1, Bn. lia.
    - rewrite seq_S, map_app, rev_app_distr. cbn [map rev app Nat.add]. rewrite !NEW.
      f_equal; [f_equal; congruence|]. rewrite T3, T2, T1, Bt. f_equal. apply map_ext_in. intros j Hj.
      apply in_seq in Hj. rewrite !OLD by lia. reflexivity.
    - intros j t Et.
      assert (KEEP : forall p a b, edge_at tb3 p a b ->
        edge_at (TB (tb_x tb3) h3 (tb_elist tb3) (TE (tb_triangles tb3) p12 p20 p01 :: tb_tlist tb3) (tb_vertices tb3) (tb_edges tb3) (tb_triangles tb3 + 1)) p a b).
      { intros p a b (e & Ep & Ee). eexists. split; [apply A3; exact Ep|exact Ee]. }
      destruct (Nat.lt_ge_cases j n) as [Hj|Hj].
      + rewrite nth_error_app1 in Et by exact Hj. destruct (Be j t Et) as (Q0 & Q1 & Q2).
        unfold tri_at. rewrite !OLD by exact Hj.
        assert (KO : forall p a b, edge_at tb p a b -> edge_at tb3 p a b).
        { intros p a b (e & Ep & Ee). exists e. split; [rewrite HH; apply UP; exact Ep|exact Ee]. }
        split; [|split]; apply KEEP, KO; assumption.
      + rewrite nth_error_app2 in Et by exact Hj.
        destruct (j - length tris) as [|d] eqn:Ed; cbn in Et; [|destruct d; discriminate].
        injection Et as <-. assert (j = n) by (unfold n in *; lia). subst j.
        unfold tri_at. rewrite !NEW. cbn [fst snd].
        split; [|split]; apply KEEP; [exists e2|exists e3|exists e1]; auto.
    - intros p e Ep. destruct (addnb_inv _ _ _ _ _ A3 Ep) as (f & Ef & ->). cbn [ee_neighbours].
      rewrite US. destruct (Nat.lt_ge_cases p (length (tb_heap tb))) as [Hp|Hp].
      + rewrite HH, nth_error_app1 in Ef by exact Hp. destruct (Bu p f Ef) as [U1 U2]. fold n in U1. lia.
      + destruct (NB p f Ef Hp) as [Z0 HP]. rewrite Z by exact Hp. rewrite Z0.
        split; [lia|]. destruct HP as [-> |[-> | ->]]; rewrite Nat.eqb_refl; lia.
  Qed.

  Lemma add_all tris0 tris pe tb : binv tris0 pe tb ->
    (forall v0 v1 v2, In (v0, v1, v2) tris ->
      v0 < tb_vertices tb /\ v1 < tb_vertices tb /\ v2 < tb_vertices tb /\ v0 <> v1 /\ v1 <> v2 /\ v2 <> v0) ->
    exists tb' pe',
      rfold (fun t tb => addtriangle_tri2dbuilder tb (fst (fst t)) (snd (fst t)) (snd t)) tris tb = Ok tb' /\
      binv (tris0 ++ tris) pe' tb' /\ tb_x tb' = tb_x tb /\ tb_vertices tb' = tb_vertices tb.
  Proof.
    revert tris0 pe tb. induction tris as [|[[v0 v1] v2] tris IH]; intros tris0 pe tb HB HT; cbn [rfold].
    - exists tb, pe. rewrite app_nil_r. auto.
    - destruct (HT v0 v1 v2 ltac:(left; reflexivity)) as (L0 & L1 & L2 & N1 & N2 & N3).
      destruct (add_ok tris0 pe tb v0 v1 v2 HB L0 L1 L2 N1 N2 N3) as (tb1 & pe1 & E1 & B1 & X1 & V1).
      cbn [fst snd]. rewrite E1. cbn [rbind].
      destruct (IH (tris0 ++ [(v0, v1, v2)]) pe1 tb1 B1) as (tb2 & pe2 & E2 & B2 & X2 & V2).
      { intros a b c Hin. rewrite V1. apply HT. right. exact Hin. }
      exists tb2, pe2. rewrite E2. rewrite <- app_assoc in B2. cbn [app] in B2.
      split; [reflexivity|]. split; [exact B2|]. split; congruence.
  Qed.

  Lemma new_binv (x : list (K * K)) : binv [] (fun _ _ => 0) (fill_x x (new_tri2dbuilder (length x))).
  Proof.
    constructor; cbn [fill_x new_tri2dbuilder tb_triangles tb_tlist tb_heap tb_x tb_elist tb_vertices tb_edges].
    - constructor; cbn [tb_triangles tb_tlist tb_heap tb_x tb_elist tb_vertices tb_edges].
      + reflexivity.
      + intros [|p] e E; discriminate.
      + intros [|p] q e f E; discriminate.
      + exists (fun _ => []). split.
        * pose proof (aof_val (repeat (@nil nat) (length x)) []) as A. rewrite repeat_length in A.
          eapply aval_ext; [exact A|]. intros i Hi. cbn. apply nth_repeat.
        * intros v p Hv. split; [intros []|]. intros (e & E & _). destruct p; discriminate.
    - reflexivity.
    - reflexivity.
    - intros [|j] t E; discriminate.
    - intros [|p] e E; discriminate.
  Qed.
End Lists.
