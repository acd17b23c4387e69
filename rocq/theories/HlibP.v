(** * Proofs about text files: lines and numbers *)
From Coq Require Import Decimal DecimalString DecimalNat DecimalFacts DecimalPos NArith Ascii String Arith Lia Bool List.
From Verif Require Import Fld Ord Prog Arr View Hlib HlibSpec.
Import ListNotations.

(** ** Decimal numbers *)
Lemma digits_uint d : forall acc rest, (forall c r, rest = c :: r -> digit c = None) -> digits acc (str (NilEmpty.string_of_uint d) ++ rest) = Nat.of_uint_acc d acc.
Proof.
  induction d; intros acc rest H.
  { cbn. destruct rest as [|c r]; [reflexivity|]. cbn [digits]. rewrite (H c r eq_refl). reflexivity. }
  all: cbn [Nat.of_uint_acc]; match goal with |- _ = Nat.of_uint_acc _ ?r => 
    etransitivity; [|apply (IHd r); exact H] end;
    rewrite Nat.tail_mul_spec; cbn [NilEmpty.string_of_uint str list_ascii_of_string app digits];
    match goal with |- match digit ?c with _ => _ end = _ => let v := eval vm_compute in (digit c) in change (digit c) with v end; cbn iota; f_equal; lia.
Qed.
Lemma to_uint_nonnil n : Nat.to_uint n <> Decimal.Nil.
Proof.
  intros E. pose proof (DecimalNat.Unsigned.of_to n) as H. pose proof (DecimalNat.Unsigned.to_of (Nat.to_uint n)) as H2. rewrite H in H2.
  rewrite E in H2. cbn in H2. discriminate.
Qed.
Lemma printu_hd n : exists c r, printu n = c :: r /\ digit c <> None /\ isspace c = false.
Proof.
  unfold printu. pose proof (to_uint_nonnil n) as H. destruct (Nat.to_uint n); [congruence|..]; cbn; eexists _, _; (split; [reflexivity|]); split; try discriminate; reflexivity.
Qed.
Lemma digits_printu n rest : (forall c r, rest = c :: r -> digit c = None) -> digits 0 (printu n ++ rest) = n.
Proof. intros H. unfold printu. rewrite digits_uint by exact H. change (Nat.of_uint_acc (Nat.to_uint n) 0) with (Nat.of_uint (Nat.to_uint n)). apply DecimalNat.Unsigned.of_to. Qed.

Lemma scan_printu n rest : (forall c r, rest = c :: r -> digit c = None) -> scan_uint (skipws (printu n ++ rest)) = Some n.
Proof.
  intros H. destruct (printu_hd n) as (c & r & E & H1 & H2). assert (Ed := digits_printu n rest H). rewrite E in *. cbn [app skipws] in *. rewrite H2. cbn [scan_uint].
  destruct (digit c); [|congruence]. f_equal. exact Ed.
Qed.
Lemma skip_printu n rest : skipws (printu n ++ rest) = printu n ++ rest.
Proof. destruct (printu_hd n) as (c & r & E & H1 & H2). rewrite E. cbn. rewrite H2. reflexivity. Qed.

Lemma of_uint_acc_ge d : forall acc, (N.of_nat acc * 10 ^ N.of_nat (length (str (NilEmpty.string_of_uint d))) <= N.of_nat (Nat.of_uint_acc d acc))%N.
Proof.
  induction d; intros acc; [cbn; lia|..]; cbn [NilEmpty.string_of_uint str list_ascii_of_string length Nat.of_uint_acc]; rewrite Nat2N.inj_succ, N.pow_succ_r';
    fold (str (NilEmpty.string_of_uint d)); rewrite Nat.tail_mul_spec;
    match goal with |- (_ <= N.of_nat (Nat.of_uint_acc d ?a))%N => specialize (IHd a) end; rewrite !Nat2N.inj_succ || idtac; etransitivity; try exact IHd;
    rewrite N.mul_assoc; apply N.mul_le_mono_r; lia.
Qed.
Lemma printu_len n : u32 n -> length (printu n) <= 10.
Proof.
  unfold u32, printu. intros H. pose proof (DecimalNat.Unsigned.to_of (Nat.to_uint n)) as Hn. rewrite DecimalNat.Unsigned.of_to in Hn.
  pose proof (DecimalNat.Unsigned.of_to n) as Ho. unfold Nat.of_uint in Ho.
  destruct (Nat.to_uint n) eqn:E; cbn [NilEmpty.string_of_uint str list_ascii_of_string length]; [lia|..]; cbn [Nat.of_uint_acc] in Ho; rewrite Nat.tail_mul_spec in Ho;
    fold (str (NilEmpty.string_of_uint u)).
  { assert (Hz : u = Decimal.Nil).
    { destruct (nzhead u) eqn:Eh; try (unfold unorm in Hn; cbn [nzhead] in Hn; rewrite Eh in Hn; discriminate); [unfold unorm in Hn; cbn [nzhead] in Hn; rewrite Eh in Hn; congruence|]. exfalso. revert Eh. clear. revert u0. induction u; cbn; intros; try discriminate. eapply IHu; eassumption. }
    subst u. cbn. lia. }
  all: match goal with Ho : Nat.of_uint_acc ?w ?a = _ |- _ => pose proof (of_uint_acc_ge w a) as Hg; rewrite Ho in Hg;
         assert (Ha : (1 <= N.of_nat a)%N) by lia;
    destruct (le_lt_dec (length (str (NilEmpty.string_of_uint w))) 9) as [Hl|Hl]; [unfold str in *; lia|exfalso];
    assert (Hp : (10 ^ 10 <= 10 ^ N.of_nat (length (str (NilEmpty.string_of_uint w))))%N) by (apply N.pow_le_mono_r; lia);
    revert Hg Hp Ha H; generalize (10 ^ N.of_nat (length (str (NilEmpty.string_of_uint w))))%N; generalize (N.of_nat a) end;
    change (10 ^ 10)%N with 10000000000%N; change (2 ^ 32)%N with 4294967296%N; clear; intros; nia.
Qed.
Lemma printu_nonl n : ~ In nl (printu n).
Proof.
  unfold printu. generalize (Nat.to_uint n). intros d. induction d; cbn; [tauto|..]; intros [E|E]; try discriminate; auto.
Qed.

(** ** Lines *)
Lemma takeline_line l rest : forall n, ~ In nl l -> length l < n -> takeline n (l ++ nl :: rest) = (l ++ [nl], rest).
Proof.
  induction l as [|c l IH]; intros [|n] H Hl; cbn in Hl; try lia; cbn [app takeline].
  - reflexivity.
  - destruct (Ascii.eqb_spec c nl) as [->|_]; [exfalso; apply H; left; reflexivity|]. rewrite IH; [reflexivity| |lia]. intros Hi. apply H. right. exact Hi.
Qed.
Lemma fgets_line l rest : ~ In nl l -> length l < 79 -> fgets 79 (l ++ nl :: rest) = Some (l ++ [nl], rest).
Proof.
  intros H Hl. unfold fgets. rewrite takeline_line by assumption. destruct l; reflexivity.
Qed.

(** A line written by [uline] is read by the corresponding format. *)
Definition fmt_ok (name fmt : string) : Prop :=
  ~ In nl (str name) /\ length (str name) < 60 /\ forall n, sscanf_u (str fmt) (str name ++ printu n ++ [nl]) = Some n.
Lemma nl_end : forall (c : ascii) (r : text), [nl] = c :: r -> digit c = None.
Proof. intros c r E. injection E as <- <-. reflexivity. Qed.
Lemma step_lit c f l : isspace c = false -> Ascii.eqb c "%"%char = false -> sscanf_u (c :: f) (c :: l) = sscanf_u f l.
Proof. intros H1 H2. cbn [sscanf_u]. rewrite H1, H2, Ascii.eqb_refl. reflexivity. Qed.
Lemma step_ws f l : sscanf_u (" "%char :: f) l = sscanf_u f (skipws l).
Proof. reflexivity. Qed.
Lemma skip_ws l : skipws (" "%char :: l) = skipws l.
Proof. reflexivity. Qed.
Lemma skip_no c l : isspace c = false -> skipws (c :: l) = c :: l.
Proof. intros H. cbn. rewrite H. reflexivity. Qed.
Lemma step_u f l : sscanf_u ("%"%char :: f) l = scan_uint (skipws l).
Proof. reflexivity. Qed.
Ltac fmt := split; [cbn; intuition discriminate|]; split; [cbn; lia|]; intros n; cbn [str list_ascii_of_string app];
  repeat first [rewrite step_ws|rewrite skip_ws|rewrite step_u|rewrite skip_printu|rewrite skip_no by reflexivity|rewrite step_lit by reflexivity]; 
  rewrite <- (skip_printu n); apply scan_printu, nl_end.
Lemma fmt_type : fmt_ok "Type " "Type %u". Proof. fmt. Qed.
Lemma fmt_roff : fmt_ok "row_offset = " "row_offset = %u". Proof. fmt. Qed.
Lemma fmt_coff : fmt_ok "col_offset = " "col_offset = %u". Proof. fmt. Qed.
Lemma fmt_rows : fmt_ok "rows = " "rows = %u". Proof. fmt. Qed.
Lemma fmt_cols : fmt_ok "cols = " "cols = %u". Proof. fmt. Qed.
Lemma fmt_k : fmt_ok "k = " "k = %u". Proof. fmt. Qed.
Lemma fmt_kt : fmt_ok "kt = " "kt = %u". Proof. fmt. Qed.
Lemma fmt_brows : fmt_ok "block_rows = " "block_rows = %u". Proof. fmt. Qed.
Lemma fmt_bcols : fmt_ok "block_cols = " "block_cols = %u". Proof. fmt. Qed.

Lemma fgets_uline name fmt n rest : fmt_ok name fmt -> u32 n -> fgets 79 (uline name n ++ rest) = Some (str name ++ printu n ++ [nl], rest).
Proof.
  intros (H1 & H2 & H3) Hn. unfold uline. rewrite <- !app_assoc. cbn [app]. rewrite app_assoc. rewrite fgets_line.
  - rewrite <- app_assoc. reflexivity.
  - rewrite in_app_iff. intros [H|H]; [auto|]. exact (printu_nonl n H).
  - rewrite app_length. pose proof (printu_len n Hn). lia.
Qed.
Lemma read_u_uline {K : fops} name fmt n rest : fmt_ok name fmt -> u32 n -> read_u (K := K) fmt (uline name n ++ rest) = Ret (n, rest).
Proof.
  intros H Hn. unfold read_u, gets. rewrite (fgets_uline name fmt n rest H Hn). cbn [bind fst snd]. destruct H as (_ & _ & ->). reflexivity.
Qed.
