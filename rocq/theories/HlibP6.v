(** * Proofs about text files: matrices whose clusters are always split the same way *)
From Coq Require Import NArith Ascii String Arith Lia Bool List.
From Verif Require Import Fld Ord Prog Arr View Spec Loop Cluster Block BlockP Amatrix Rkmatrix RkSpec RkP Hmatrix HmSpec HmP HmP4 HmP5 Hlib HlibSpec HlibP.
Import ListNotations.

Section P6.
Context {K : fops} {G : ofops}.
Implicit Types (m : mem K) (h : hmatrix G).

Fixpoint cshape (n : nat) (c : cluster G) : shape :=
  match n with
  | 0 => Shp (c_size c) []
  | S n => Shp (c_size c) (match c_sons c with [] => [cshape n c] | l => map (cshape n) l end)
  end.
Lemma cshape_size n c : ssize (cshape n c) = c_size c.
Proof. destruct n; reflexivity. Qed.
Lemma cshape_part n (c : cptr G) k i t : cl_part c k i t -> i < k ->
  List.length (match c_sons (cp_c c) with [] => [cshape n (cp_c c)] | l => map (cshape n) l end) = k /\
  nth_error (match c_sons (cp_c c) with [] => [cshape n (cp_c c)] | l => map (cshape n) l end) i = Some (cshape n (cp_c t)).
Proof.
  intros H Hi. unfold cl_part, cp_sons, cp_son in H. destruct H as [(H1 & -> & ->)|(H1 & H2 & H3)].
  - destruct (c_sons (cp_c c)); [|discriminate]. assert (i = 0) by lia. subst. split; reflexivity.
  - destruct (c_sons (cp_c c)) as [|a l] eqn:E; [cbn in H2; lia|]. rewrite <- E in *. rewrite map_length. split; [congruence|].
    rewrite nth_error_map. destruct (nth_error (c_sons (cp_c c)) i) as [x|]; [|discriminate]. injection H3 as <-. reflexivity.
Qed.

Lemma nodes_son (rc cc : cptr G) r f l rs cs ds s : In s l -> List.length (hnodes s) < List.length (hnodes (HM rc cc r f (Some l) rs cs ds)).
Proof.
  cbn [hnodes List.length]. intros H. apply in_split in H. destruct H as (l1 & l2 & ->). rewrite flat_map_app, app_length. cbn [flat_map]. rewrite app_length. lia.
Qed.
Lemma hstd_fits h : forall n m D, hrep m h D -> hstd h -> List.length (hnodes h) <= n -> hfits h (cshape n (cp_c (hm_rc h))) (cshape n (cp_c (hm_cc h))).
Proof.
  induction h as [h IH] using hm_rect'. intros n m D Hr Hs Hn.
  destruct Hr as [rc cc r ds D H1 H2 H3|rc cc a ds D H1 H2 H3|rc cc l rsons csons ds hs ws D P1 P2 P3 P4 P5 P6 P7].
  - apply hfits_leaf; [reflexivity| |]; rewrite cshape_size; reflexivity.
  - apply hfits_leaf; [reflexivity| |]; rewrite cshape_size; reflexivity.
  - destruct n as [|n]; [cbn in Hn; lia|]. cbn [cshape hm_rc hm_cc].
    destruct (Hs _ l (or_introl eq_refl) eq_refl) as [_ Hp]. cbn [hm_rc hm_cc hm_rsons hm_csons] in Hp.
    assert (N0 : nth_error l (0 + 0 * rsons) <> None) by (apply nth_error_Some; rewrite P3; nia). destruct (nth_error l (0 + 0 * rsons)) as [s0|] eqn:E0; [|congruence].
    destruct (Hp 0 0 s0 P1 P2 E0) as [C1 C2]. destruct (cshape_part n rc rsons 0 _ C1 P1) as [L1 _]. destruct (cshape_part n cc csons 0 _ C2 P2) as [L2 _].
    apply hfits_super; [exact L1|exact L2|]. intros i j s u v Es Eu Ev.
    assert (Hi : i < rsons) by (apply nth_lt in Eu; lia). assert (Hj : j < csons) by (apply nth_lt in Ev; lia).
    destruct (Hp i j s Hi Hj Es) as [A1 A2]. destruct (cshape_part n rc rsons i _ A1 Hi) as [_ B1]. destruct (cshape_part n cc csons j _ A2 Hj) as [_ B2].
    rewrite B1 in Eu. injection Eu as <-. rewrite B2 in Ev. injection Ev as <-. pose proof (nth_error_In _ _ Es) as Hin.
    eapply (IH l s eq_refl Hin); [apply (P7 i j s Hi Hj Es)| |pose proof (nodes_son rc cc None None l rsons csons ds s Hin); lia].
    intros s' l' Hs' Hl'. apply Hs; [|exact Hl']. cbn [hnodes]. right. apply in_flat_map. exists s. split; assumption.
Qed.
Lemma hstd_shape h m D : hrep m h D -> hstd h -> exists R C, hfits h R C.
Proof. intros Hr Hs. eexists _, _. eapply hstd_fits; [exact Hr|exact Hs|apply le_n]. Qed.
End P6.
