(** * Storage of cluster bases, ranks, copies *)
From Coq Require Import Arith Lia List Bool Permutation.
From Verif Require Import Fld Ord Prog Arr View Loop Spec Cluster Block Avector Amatrix AmatrixP AmatrixP2 RkP Hmatrix HmSpec HmP Clusterbasis CbSpec CbP CbP2 Cbmgr CbmSpec.
Import ListNotations.

Section P.
Context {K : fops} {G : ofops}.
Implicit Types (m : mem K) (cb s : cbasis G) (D : nat -> Prop) (Ls : list mat).

(** ** Lists of matrices *)
Lemma mwf_fresh b r c : mwf (Mat b 0 r r c true).
Proof. unfold mwf. cbn. lia. Qed.
Lemma malloc_fresh m r c : malloc (alloc m (r * c)) (Mat (next m) 0 r r c true).
Proof.
  intros i j Hi Hj. cbn in *. unfold ma; cbn. rewrite get_alloc_new.
  destruct (Nat.ltb_spec (i + j * r) (r * c)) as [H|H]; [discriminate|].
  exfalso. assert (S j * r <= c * r) by (apply Nat.mul_le_mono_r; lia). rewrite (Nat.mul_comm r c) in H. cbn in *. lia.
Qed.
Lemma get_next m a : next m <= fst a -> get m a = Free.
Proof. intros H. unfold get. destruct (Nat.ltb_spec (fst a) (next m)); [lia|reflexivity]. Qed.
Lemma matown_keeps m m' A (W : addr -> Prop) : matown m A -> keeps W m m' -> (forall a, inm A a -> ~ W a) -> matown m' A.
Proof.
  intros (H1 & H2 & H3 & H4) Hk Hd. split; [exact H1|]. split; [destruct Hk; lia|]. split; [exact H3|]. eapply malloc_keeps'; eassumption.
Qed.
Lemma lm_start m Ls : Forall (matown m) Ls -> NoDup (map mblk Ls) -> lm (fun b => In b (map mblk Ls) \/ next m <= b) m Ls.
Proof. intros H1 H2. split; [exact H1|]. split; [exact H2|]. split; [auto|]. intros a [H|H] Hn; [contradiction|apply get_next, H]. Qed.
Lemma lm_fresh m : lm (fun b => next m <= b) m [].
Proof. split; [constructor|]. split; [constructor|]. split; [auto|]. intros a H _. apply get_next, H. Qed.
Lemma lm_perm D m Ls Ls' : Permutation Ls Ls' -> lm D m Ls -> lm D m Ls'.
Proof.
  intros HP (H1 & H2 & H3 & H4). pose proof (Permutation_map mblk HP) as HB. split; [|split; [|split]].
  - rewrite Forall_forall in *. intros A HA. apply H1. apply (Permutation_in _ (Permutation_sym HP)), HA.
  - eapply Permutation_NoDup; eassumption.
  - exact H3.
  - intros a Ha Hn. apply H4; [exact Ha|]. intros Hc. apply Hn. apply (Permutation_in _ HB), Hc.
Qed.
Lemma lm_own D m Ls A : lm D m Ls -> In A Ls -> matown m A.
Proof. intros (H & _) HA. rewrite Forall_forall in H. apply H, HA. Qed.
Lemma lm_blk D m Ls b : lm D m Ls -> In b (map mblk Ls) -> b < next m.
Proof. intros H Hb. apply in_map_iff in Hb as (A & <- & HA). apply (lm_own _ _ _ _ H HA). Qed.
Lemma lm_alloc D m Ls r c : lm D m Ls -> lm D (alloc m (r * c)) (Mat (next m) 0 r r c true :: Ls).
Proof.
  intros H. pose proof (fun b => lm_blk D m Ls b H) as Hb. destruct H as (H1 & H2 & H3 & H4).
  assert (HN : ~ In (next m) (map mblk Ls)) by (intros HN; apply Hb in HN; lia).
  split; [|split; [|split]].
  - constructor.
    + split; [reflexivity|]. split; [cbn; lia|]. split; [apply mwf_fresh|apply malloc_fresh].
    + rewrite Forall_forall in *. intros A HA. eapply (matown_keeps m _ A (fun a => fst a = next m)); [apply H1, HA| |].
      * split; [cbn; lia|]. intros a Ha. apply get_alloc_old. exact Ha.
      * intros a Ha E. apply inm_blk in Ha. apply HN. rewrite <- E, Ha. apply in_map, HA.
  - cbn. constructor; assumption.
  - intros b Hn. apply H3. cbn in Hn. lia.
  - intros a Ha Hn. cbn in Hn. rewrite get_alloc_old by (intros E; apply Hn; left; symmetry; exact E). apply H4; [exact Ha|]. intros Hc. apply Hn. right. exact Hc.
Qed.
Lemma lm_free D m A Ls : lm D m (A :: Ls) -> lm D (dealloc m (mblk A)) Ls.
Proof.
  intros (H1 & H2 & H3 & H4). inversion H1 as [|? ? HA HL]; subst. cbn in H2. inversion H2 as [|? ? N1 N2]; subst. split; [|split; [|split]].
  - rewrite Forall_forall in *. intros B HB. eapply (matown_keeps m _ B (fun a => fst a = mblk A)); [apply HL, HB| |].
    + split; [cbn; lia|]. intros a Ha. rewrite get_dealloc. destruct (Nat.eqb_spec (fst a) (mblk A)); [contradiction|reflexivity].
    + intros a Ha E. apply inm_blk in Ha. apply N1. rewrite <- E, Ha. apply in_map, HB.
  - exact N2.
  - exact H3.
  - intros a Ha Hn. rewrite get_dealloc. destruct (Nat.eqb_spec (fst a) (mblk A)) as [|Hne]; [reflexivity|]. apply H4; [exact Ha|]. cbn. intros [E|E]; [congruence|contradiction].
Qed.
Lemma lm_write D m m' A Ls : lm D m (A :: Ls) -> keeps (inm A) m m' -> malloc m' A -> lm D m' (A :: Ls).
Proof.
  intros (H1 & H2 & H3 & H4) Hk Ha. inversion H1 as [|? ? HA HL]; subst. cbn in H2. inversion H2 as [|? ? N1 N2]; subst. split; [|split; [|split]].
  - constructor.
    + destruct HA as (A1 & A2 & A3 & A4). split; [exact A1|]. split; [destruct Hk; lia|]. auto.
    + rewrite Forall_forall in *. intros B HB. eapply (matown_keeps m _ B); [apply HL, HB|exact Hk|].
      intros a Hb Hc. apply inm_blk in Hb, Hc. apply N1. rewrite <- Hc, Hb. apply in_map, HB.
  - exact H2.
  - intros b Hb. apply H3. destruct Hk. lia.
  - intros a Hd Hn. rewrite (proj2 Hk); [apply H4; assumption|]. intros Hc. apply inm_blk in Hc. apply Hn. left. symmetry. exact Hc.
Qed.
Lemma lm_disj D m A Ls B : lm D m (A :: Ls) -> In B Ls -> disj (inm A) (inm B).
Proof.
  intros (_ & H2 & _) HB a Ha Hb. apply inm_blk in Ha, Hb. cbn in H2. inversion H2 as [|? ? N1 N2]; subst. apply N1. rewrite <- Ha, Hb. apply in_map, HB.
Qed.

(** ** Programs *)
Lemma wp_init_lm D m Ls r c (Q : mat -> mem K -> Prop) : lm D m Ls ->
  (forall A m', A = Mat (next m) 0 r r c true -> lm D m' (A :: Ls) -> keeps (fun a => next m <= fst a) m m' -> Q A m') ->
  wp TT TT (init_amatrix r c) m Q.
Proof.
  intros H HQ. apply wp_init_amatrix. intros A EA _ _. apply HQ; [exact EA|subst A; apply lm_alloc, H|].
  split; [cbn; lia|]. intros a Ha. apply get_alloc_old. lia.
Qed.
Lemma wp_uninit_lm D m A Ls (Q : unit -> mem K -> Prop) : lm D m (A :: Ls) ->
  (forall m', lm D m' Ls -> keeps (fun a => fst a = mblk A) m m' -> Q tt m') ->
  wp TT TT (uninit_amatrix A) m Q.
Proof.
  intros H HQ. destruct (lm_own _ _ _ A H (or_introl eq_refl)) as (H1 & H2 & _). unfold uninit_amatrix. rewrite H1. cbn.
  split; [exact H2|]. split; [intros; exact I|]. apply HQ; [apply lm_free, H|].
  split; [cbn; lia|]. intros a Ha. rewrite get_dealloc. destruct (Nat.eqb_spec (fst a) (mblk A)); [contradiction|reflexivity].
Qed.
Lemma wp_resize_lm D m A Ls r c (Q : mat -> mem K -> Prop) : lm D m (A :: Ls) ->
  (forall B m', mrows B = r -> mcols B = c -> lm D m' (B :: Ls) -> (mblk B = mblk A \/ next m <= mblk B) ->
     keeps (fun a => fst a = mblk A \/ next m <= fst a) m m' -> Q B m') ->
  wp TT TT (resize_amatrix A r c) m Q.
Proof.
  intros H HQ. destruct (lm_own _ _ _ A H (or_introl eq_refl)) as (H1 & H2 & _). unfold resize_amatrix. wstep; [exact H1|].
  destruct ((r =? mrows A) && (c =? mcols A)) eqn:E.
  - apply andb_true_iff in E as [E1%Nat.eqb_eq E2%Nat.eqb_eq]. cbn [wp]. apply HQ; auto. apply keeps_refl.
  - cbn [bind pfree palloc wp]. split; [exact H2|]. split; [intros; exact I|]. apply HQ; auto; try reflexivity.
    + apply lm_alloc, lm_free, H.
    + split; [cbn; lia|]. intros a Ha. rewrite get_alloc_old by (cbn; intros E'; apply Ha; right; lia).
      rewrite get_dealloc. destruct (Nat.eqb_spec (fst a) (mblk A)); [exfalso; apply Ha; auto|reflexivity].
Qed.

Lemma wp_pmap {A B} (f : A -> prog K B) (I : list A -> list B -> mem K -> Prop) l m (R W : addr -> Prop) (Q : list B -> mem K -> Prop) :
  I [] [] m ->
  (forall l1 a l2 bs m1, l = l1 ++ a :: l2 -> I l1 bs m1 -> wp R W (f a) m1 (fun b m2 => I (l1 ++ [a]) (bs ++ [b]) m2)) ->
  (forall bs m1, I l bs m1 -> Q bs m1) ->
  wp R W (pmap f l) m Q.
Proof.
  intros H0 HS HQ.
  assert (HG : forall l2 l1 bs m1 (Q' : list B -> mem K -> Prop), l = l1 ++ l2 -> I l1 bs m1 -> (forall bs2 m2, I l (bs ++ bs2) m2 -> Q' bs2 m2) -> wp R W (pmap f l2) m1 Q').
  { induction l2 as [|a l2 IH]; intros l1 bs m1 Q' El HI HQ'.
    - cbn. apply HQ'. rewrite !app_nil_r in *. subst l1. exact HI.
    - cbn [pmap]. apply wp_bind. eapply wp_conseq; [eapply HS; eassumption|]. cbv beta. intros b m2 HI2. apply wp_bind. fold (pmap f).
      eapply IH; [|exact HI2|]; [rewrite <- app_assoc; exact El|]. intros bs2 m3 HI3. cbn. apply HQ'. rewrite <- app_assoc in HI3. exact HI3. }
  eapply HG; [|exact H0|]; [reflexivity|]. intros bs2 m2 H. apply HQ, H.
Qed.
Lemma pmap_length_inv {A B} (l1 : list A) (bs : list B) a b (P : A -> B -> Prop) : Forall2 P l1 bs -> P a b -> Forall2 P (l1 ++ [a]) (bs ++ [b]).
Proof. intros H1 H2. apply Forall2_app; [exact H1|]. constructor; [exact H2|constructor]. Qed.

(** ** Ranks *)
Lemma fold_update l a b : fold_left (fun '(st, sb) (s : cbasis G) => (st + cb_ktree s, if sb <? cb_kbranch s then cb_kbranch s else sb)) l (a, b) =
  (a + nsum (length l) (at_ cb_ktree l), Nat.max b (list_max (map cb_kbranch l))).
Proof.
  revert a b. induction l as [|s l IH]; intros a b; [cbn; f_equal; lia|]. cbn [fold_left]. rewrite IH. f_equal.
  - cbn [length]. rewrite nsum_head. unfold at_ at 2. cbn [map nth]. rewrite <- Nat.add_assoc. f_equal.
  - cbn [map list_max fold_right]. fold (list_max (map cb_kbranch l)). destruct (Nat.ltb_spec b (cb_kbranch s)); lia.
Qed.
Lemma update_eq t k kt kb V E l Z : update_clusterbasis (CB t k kt kb V E l Z : cbasis G) =
  match l with
  | [] => CB t k (k + csz t) (k + csz t) V E l Z
  | _ => CB t k (k + nsum (length l) (at_ cb_ktree l)) (k + list_max (map cb_kbranch l)) V E l Z
  end.
Proof.
  unfold update_clusterbasis. destruct l as [|s l]; [f_equal; lia|]. rewrite fold_update. f_equal; lia.
Qed.

Definition rkblks cb : list nat := match cb with CB _ _ _ _ V E [] _ => [mblk V; mblk E] | CB _ _ _ _ _ E l _ => mblk E :: map (fun s => mblk (cb_E s)) l end.
Definition sonsE k (l l' : list (cbasis G)) : Prop := Forall2 (fun s s' => s' = cb_setE s (cb_E s') /\ mrows (cb_E s') = cb_k s /\ mcols (cb_E s') = k) l l'.

Lemma setE_E s E : cb_E (cb_setE s E) = E. Proof. destruct s. reflexivity. Qed.
Lemma cbmats_E s : cbmats s = cb_V s :: cb_E s :: flat_map cbmats (cb_son s). Proof. destruct s. reflexivity. Qed.
Lemma cbmats_setE s E : cbmats (cb_setE s E) = cb_V s :: E :: flat_map cbmats (cb_son s). Proof. destruct s. reflexivity. Qed.

Lemma wp_setrank_E D t k0 kt kb V E l Z k m rest (Q : cbasis G -> mem K -> Prop) :
  let cb := CB t k0 kt kb V E l Z in
  lm D m (cbmats cb ++ rest) ->
  (forall V' E' l' m', let cb' := CB t k kt kb V' E' l' Z in
     (l = [] -> mrows V' = csz t /\ mcols V' = k) -> (l <> [] -> V' = V) -> sonsE k l l' -> mrows E' = k -> mcols E' = mcols E -> (mblk E' = mblk E \/ next m <= mblk E') ->
     lm D m' (cbmats cb' ++ rest) -> (forall b, In b (map mblk (cbmats cb')) -> In b (map mblk (cbmats cb)) \/ next m <= b) ->
     keeps (fun a => In (fst a) (rkblks cb) \/ next m <= fst a) m m' -> Q (update_clusterbasis cb') m') ->
  wp TT TT (setrank_clusterbasis cb k) m Q.
Proof.
  intros cb Hm HQ. unfold cb, setrank_clusterbasis. destruct l as [|s0 l0].
  - apply wp_bind. apply wp_bind. eapply wp_resize_lm; [exact Hm|]. intros V1 m1 V11 V12 Hm1 V13 K1. cbn [wp].
    apply wp_bind. cbn [fst snd]. eapply wp_resize_lm with (Ls := V1 :: rest); [eapply lm_perm; [|exact Hm1]; apply perm_swap|]. intros E1 m2 E11 E12 Hm2 E13 K2. cbn [wp].
    assert (N : next m <= next m1) by apply K1. 
    apply (HQ V1 E1 [] m2); auto.
    + congruence.
    + constructor.
    + lia.
    + eapply lm_perm; [|exact Hm2]. apply perm_swap.
    + cbn. intros b [<-|[<-|[]]]; lia.
    + eapply keeps_trans; (eapply keeps_mono; [|eassumption]); cbn; intros a; lia.
  - remember (s0 :: l0) as l eqn:El. assert (Hln : l <> []) by (subst l; discriminate).
    set (Erest := V :: E :: rest).
    assert (Hm0 : lm D m (flat_map cbmats l ++ Erest)). { eapply lm_perm; [|exact Hm]. unfold cb, Erest. cbn [cbmats app]. symmetry. eapply perm_trans; [symmetry; apply Permutation_middle|]. constructor. symmetry. apply Permutation_middle. }
    apply wp_bind. rewrite El. rewrite <- El. apply wp_bind.
    eapply (wp_pmap _ (fun l1 bs m1 => sonsE k l1 bs /\ (forall l2, l = l1 ++ l2 -> lm D m1 (flat_map cbmats (bs ++ l2) ++ Erest)) /\
       (forall b, In b (map mblk (flat_map cbmats bs)) -> In b (map mblk (flat_map cbmats l1)) \/ next m <= b) /\
       keeps (fun a => In (fst a) (map (fun s => mblk (cb_E s)) l1) \/ next m <= fst a) m m1)).
    + split; [constructor|]. split; [intros l2 ->; exact Hm0|]. split; [cbn; auto|apply keeps_refl].
    + intros l1 s l2 bs m1 E1 (HS & HL & HB & HK). apply wp_bind. specialize (HL _ E1).
      assert (N1 : next m <= next m1) by apply HK.
      eapply wp_resize_lm with (Ls := cb_V s :: flat_map cbmats (cb_son s) ++ flat_map cbmats bs ++ flat_map cbmats l2 ++ Erest).
      { eapply lm_perm; [|exact HL]. rewrite flat_map_app. cbn [flat_map]. rewrite cbmats_E, <- !app_assoc. cbn [app].
        eapply perm_trans; [symmetry; apply Permutation_middle|]. eapply perm_trans; [apply perm_skip; symmetry; apply Permutation_middle|].
        eapply perm_trans; [apply perm_swap|]. do 2 apply perm_skip. apply Permutation_app_swap_app. }
      intros E1' m2 E11 E12 Hm2 E13 K2. cbn [wp]. split; [|split; [|split]].
      * apply pmap_length_inv; [exact HS|]. rewrite setE_E. auto.
      * intros l2' El'. assert (l2' = l2). { rewrite El' in E1. rewrite <- app_assoc in E1. apply app_inv_head in E1. injection E1 as ->. reflexivity. } subst l2'.
        eapply lm_perm; [|exact Hm2]. rewrite <- app_assoc, flat_map_app. cbn [flat_map app]. rewrite cbmats_setE, <- !app_assoc. cbn [app]. symmetry.
        eapply perm_trans; [symmetry; apply Permutation_middle|]. eapply perm_trans; [apply perm_skip; symmetry; apply Permutation_middle|].
        eapply perm_trans; [apply perm_swap|]. do 2 apply perm_skip. apply Permutation_app_swap_app.
      * intros b Hb. rewrite !flat_map_app, map_app in *. apply in_app_or in Hb as [Hb|Hb].
        -- apply HB in Hb as [Hb|Hb]; [left; apply in_or_app; left; exact Hb|right; exact Hb].
        -- cbn [flat_map] in Hb |- *. rewrite app_nil_r in *. rewrite cbmats_setE in Hb. rewrite cbmats_E. cbn [map] in Hb |- *. destruct Hb as [<-|[<-|Hb]].
           ++ left. apply in_or_app. right. left. reflexivity.
           ++ destruct E13 as [->|E13]; [left; apply in_or_app; right; right; left; reflexivity|right; lia].
           ++ left. apply in_or_app. right. right. right. exact Hb.
      * eapply keeps_trans; (eapply keeps_mono; [|eassumption]); intros a; rewrite map_app, in_app_iff; cbn; [tauto|]. intros [H|H]; [left; right; left; symmetry; exact H|right; lia].
    + intros l' m1 (HS & HL & HB & HK). cbn [wp bind fst snd]. apply wp_bind. assert (N1 : next m <= next m1) by apply HK.
      assert (HL1 : lm D m1 (E :: V :: flat_map cbmats l' ++ rest)).
      { eapply lm_perm; [|apply (HL []); rewrite app_nil_r; reflexivity]. unfold Erest. rewrite app_nil_r. eapply perm_trans; [symmetry; apply Permutation_middle|].
        eapply perm_trans; [apply perm_skip; symmetry; apply Permutation_middle|]. apply perm_swap. }
      eapply wp_resize_lm; [exact HL1|]. intros E' m2 E1 E2 Hm2 E3 K2. cbn [wp].
      apply (HQ V E' l' m2); auto.
      * congruence.
      * lia.
      * eapply lm_perm; [|exact Hm2]. cbn [cbmats app]. apply perm_swap.
      * intros b. unfold cb. cbn. intros [<-|[<-|Hb]]; [auto|lia|]. apply HB in Hb as [Hb|Hb]; auto.
      * unfold cb, rkblks. rewrite El. rewrite <- El. eapply keeps_trans; (eapply keeps_mono; [|eassumption]); cbn [In]; intros a; [intros [H|H]; [left; right; exact H|right; exact H]|].
        intros [H|H]; [left; left; symmetry; exact H|right; lia].
Qed.
Lemma wp_setrank D t k0 kt kb V E l Z k m rest (Q : cbasis G -> mem K -> Prop) :
  let cb := CB t k0 kt kb V E l Z in
  lm D m (cbmats cb ++ rest) ->
  (forall V' E' l' m', let cb' := CB t k kt kb V' E' l' Z in
     (l = [] -> mrows V' = csz t /\ mcols V' = k) -> (l <> [] -> V' = V) -> sonsE k l l' -> mrows E' = k -> mcols E' = mcols E ->
     lm D m' (cbmats cb' ++ rest) -> (forall b, In b (map mblk (cbmats cb')) -> In b (map mblk (cbmats cb)) \/ next m <= b) ->
     keeps (fun a => In (fst a) (rkblks cb) \/ next m <= fst a) m m' -> Q (update_clusterbasis cb') m') ->
  wp TT TT (setrank_clusterbasis cb k) m Q.
Proof. intros cb Hm HQ. eapply wp_setrank_E; [exact Hm|]. intros V' E' l' m' cb' H1 H2 H3 H4 H5 _. apply HQ; assumption. Qed.
End P.
