(** C91: the types with which traits are stored. *)
From Coq Require Import Ascii String DecimalN.
From Verif Require Import Outcome ExpModel BsonModel.
Local Open Scope N_scope.

Lemma dval_pos u : forall a, dval (Npos a) (digits u) = Npos (Pos.of_uint_acc u a).
Proof.
  induction u as [|u IH|u IH|u IH|u IH|u IH|u IH|u IH|u IH|u IH|u IH]; intros a; [reflexivity|..]; cbn [digits dval Pos.of_uint_acc];
    match goal with |- context [is_digit ?c] => change (is_digit c) with true end; cbv iota; rewrite <- IH; f_equal; match goal with |- context [N_of_ascii ?c] => let v := eval vm_compute in (N_of_ascii c) in change (N_of_ascii c) with v end; lia.
Qed.
Lemma dval_show n : dval 0 (show n) = n.
Proof.
  unfold show. transitivity (N.of_uint (N.to_uint n)); [|apply Unsigned.of_to]. unfold N.of_uint.
  induction (N.to_uint n) as [|u IH|u IH|u IH|u IH|u IH|u IH|u IH|u IH|u IH|u IH]; [reflexivity|exact IH|..]; cbn [digits Pos.of_uint]; rewrite <- dval_pos; reflexivity.
Qed.
Lemma digits_digit u : forallb is_digit (digits u) = true.
Proof. induction u as [|u IH|u IH|u IH|u IH|u IH|u IH|u IH|u IH|u IH|u IH]; cbn [digits forallb]; [reflexivity|..]; rewrite IH; reflexivity. Qed.
Lemma show_cons n : exists c s, show n = c :: s /\ is_digit c = true /\ forallb is_digit s = true.
Proof.
  pose proof (digits_digit (N.to_uint n)) as H. fold (show n) in H. destruct (show n) as [|c s] eqn:E.
  - exfalso. unfold show in E. assert (F : forall u, digits u = [] -> u = Decimal.Nil) by (intros [] F; discriminate || reflexivity). apply F in E. destruct n; [discriminate E|]. cbn in E. now apply (DecimalPos.Unsigned.to_uint_nonnil p).
  - cbn [forallb] in H. apply Bool.andb_true_iff in H as [H1 H2]. now exists c, s.
Qed.
Lemma digit_range c : is_digit c = true -> 48 <= N_of_ascii c <= 57.
Proof. unfold is_digit. rewrite Bool.andb_true_iff, !N.leb_le. tauto. Qed.
Lemma digit_class c : is_digit c = true -> in_class c = true.
Proof. intros H. apply digit_range in H. unfold in_class. rewrite Bool.andb_true_iff, !N.leb_le. lia. Qed.
Lemma digit_space c : is_digit c = true -> is_space c = false.
Proof. intros H. apply digit_range in H. unfold is_space. rewrite Bool.orb_false_iff, Bool.andb_false_iff, N.eqb_neq, !N.leb_gt. lia. Qed.
Lemma digit_neq c d : is_digit c = true -> is_digit d = false -> Ascii.eqb c d = false.
Proof. intros H1 H2. apply Ascii.eqb_neq. intros ->. congruence. Qed.

(** The text of a number: digits, with - if it is negative. *)
Definition number (z : Z) : str := if (z <? 0)%Z then "-"%char :: show (Z.abs_N z) else show (Z.abs_N z).
(** Every number of type long is stored as that number, also with a leading +. *)
Theorem C91_numbers z : (- 2 ^ 63 <= z < 2 ^ 63)%Z -> bson_trait (number z) = Long z /\ ((0 <= z)%Z -> bson_trait ("+"%char :: number z) = Long z).
Proof.
  intros Hz. destruct (show_cons (Z.abs_N z)) as (c & s & E & Hc & Hs). pose proof (dval_show (Z.abs_N z)) as D. rewrite E in D.
  assert (R : ((- 2 ^ 63 <=? z) && (z <? 2 ^ 63))%Z = true) by (apply Bool.andb_true_iff; rewrite Z.leb_le, Z.ltb_lt; exact Hz).
  assert (A : forall x, x = "+"%char \/ x = "-"%char -> is_int (x :: c :: s) = true).
  { intros x Hx. cbn [is_int forallb]. rewrite Hc, Hs. destruct Hx as [->| ->]; reflexivity. }
  assert (S : forall x, x = "+"%char \/ x = "-"%char -> skip_space (x :: c :: s) = x :: c :: s) by (intros x [->| ->]; reflexivity).
  unfold number, bson_trait, stol. rewrite E. destruct (z <? 0)%Z eqn:Ez.
  - split; [|intros H; lia]. rewrite A by auto. rewrite S by auto. cbn [Ascii.eqb Bool.eqb]. cbv iota zeta. rewrite Hc. rewrite D. replace (- Z.of_N (Z.abs_N z))%Z with z by lia. now rewrite R.
  - split.
    + assert (I : is_int (c :: s) = true). { cbn [is_int]. destruct s as [|d s]; [exact Hc|]. now rewrite (digit_class c Hc), Hs. } rewrite I.
      assert (K : skip_space (c :: s) = c :: s) by (cbn [skip_space]; now rewrite digit_space). rewrite K. rewrite !digit_neq by (trivial; reflexivity). cbv iota zeta. rewrite Hc, D. replace (Z.of_N (Z.abs_N z)) with z by lia. now rewrite R.
    + intros _. rewrite A by auto. rewrite S by auto. cbn [Ascii.eqb Bool.eqb]. cbv iota zeta. rewrite Hc, D. replace (Z.of_N (Z.abs_N z)) with z by lia. now rewrite R.
Qed.
Print Assumptions C91_numbers.
Example C91_numbers_ex : number (-42) = txt "-42" /\ bson_trait (txt "-42") = Long (-42) /\ bson_trait (txt "7") = Long 7 /\ bson_trait (txt "u") = Text /\ bson_trait (txt "12.5") = Double.
Proof. repeat split. Qed.

(** A letter followed by a number is taken for a number, and storing the run throws. *)
Theorem C91_words_refuted c n : (65 <= N_of_ascii c <= 90 \/ 97 <= N_of_ascii c <= 122) -> bson_trait (c :: show n) = Throws.
Proof.
  intros Hl. destruct (show_cons n) as (d & s & E & Hd & Hs). rewrite E.
  assert (Nd : is_digit c = false) by (unfold is_digit; rewrite Bool.andb_false_iff, !N.leb_gt; lia).
  assert (Cl : in_class c = true) by (unfold in_class; rewrite Bool.andb_true_iff, !N.leb_le; lia).
  assert (Sp : is_space c = false) by (unfold is_space; rewrite Bool.orb_false_iff, Bool.andb_false_iff, N.eqb_neq, !N.leb_gt; lia).
  assert (N1 : Ascii.eqb c "-" = false) by (apply Ascii.eqb_neq; intros ->; cbn in Hl; lia). assert (N2 : Ascii.eqb c "+" = false) by (apply Ascii.eqb_neq; intros ->; cbn in Hl; lia).
  unfold bson_trait. assert (I : is_int (c :: d :: s) = true) by (cbn [is_int forallb]; now rewrite Cl, Hd, Hs). rewrite I. unfold stol. cbn [skip_space]. rewrite Sp, N1, N2. cbv iota zeta. now rewrite Nd.
Qed.
Print Assumptions C91_words_refuted.
Example C91_words_ex : bson_trait (txt "c3") = Throws /\ bson_trait (txt "99999999999999999999") = Throws.
Proof. split; reflexivity. Qed.

(** A number with a point whose second digit is 0 is stored as text, as is a negative one below 1. *)
Theorem C91_decimals_refuted c s : is_digit c = true \/ c = "-"%char -> bson_trait (c :: "0"%char :: "."%char :: s) = Text.
Proof. intros H. unfold bson_trait. cbn [is_int forallb is_float]. change (is_digit ".") with false. change (is_digit "0") with true. cbn [andb]. rewrite Bool.andb_false_r. change ((49 <=? N_of_ascii "0") && (N_of_ascii "0" <=? 57)) with false. change (("0" =? ".")%char) with false. cbv iota. now rewrite Bool.andb_false_r. Qed.
Print Assumptions C91_decimals_refuted.
Example C91_decimals_ex : bson_trait (txt "10.5") = Text /\ bson_trait (txt "-0.5") = Text /\ bson_trait (txt "11.5") = Double /\ bson_trait (txt "0.5") = Double.
Proof. repeat split. Qed.
