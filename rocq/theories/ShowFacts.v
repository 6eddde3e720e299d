(** Digits written by the serializer. *)
From Coq Require Import String Ascii NArith ZArith Lia Bool List.
From Coq Require Import ZifyBool ZifyNat ZifyN.
From Verif Require Import Base Facts Value Data Parse De Ser EnvOk Lit.
Import ListNotations.
Open Scope N_scope.
Open Scope list_scope.

Lemma hex_digit_char d : d < 16 -> hex_digit (digit_char d) d.
Proof.
  intros H. unfold digit_char. destruct (d <? 10) eqn:L.
  - apply hd_num. lia.
  - apply hd_low. lia.
Qed.

Lemma digits_acc f : forall base n acc, digits f base n acc = digits f base n [] ++ acc.
Proof.
  induction f as [|f IH]; intros base n acc; [reflexivity|]. cbn [digits]. cbv zeta.
  destruct (n <? base); [reflexivity|]. rewrite IH, (IH _ _ [_]), <- app_assoc. reflexivity.
Qed.
Lemma digits_step f base n : digits (S f) base n [] =
  if n <? base then [digit_char (n mod base)] else digits f base (n / base) [] ++ [digit_char (n mod base)].
Proof. cbn [digits]. cbv zeta. destruct (n <? base); [reflexivity|]. apply digits_acc. Qed.

Lemma div_bound base n f : 2 <= base -> n < base ^ N.of_nat (S f) -> n / base < base ^ N.of_nat f.
Proof.
  intros B H. apply N.div_lt_upper_bound; [lia|]. rewrite Nat2N.inj_succ, N.pow_succ_r' in H. lia.
Qed.
Lemma size_bound base n : 2 <= base -> n < base ^ N.of_nat (S (N.size_nat n)).
Proof.
  intros B. assert (H : n < 2 ^ N.of_nat (N.size_nat n)).
  { replace (N.of_nat (N.size_nat n)) with (N.size n); [apply N.size_gt|].
    destruct n as [|p]; [reflexivity|]. cbn [N.size N.size_nat].
    assert (Pos.size_nat p = Pos.to_nat (Pos.size p)) as -> by (clear; induction p; cbn; lia). lia. }
  eapply N.lt_le_trans; [exact H|]. transitivity (2 ^ N.of_nat (S (N.size_nat n))).
  - apply N.pow_le_mono_r; lia.
  - apply N.pow_le_mono_l. lia.
Qed.

Lemma digits_int base : 2 <= base <= 16 -> forall f n, n < base ^ N.of_nat f -> (0 < f)%nat ->
  int_number (Z.of_N base) (digits f base n []) (Z.of_N n).
Proof.
  intros B f. induction f as [|f IH]; intros n H F; [lia|]. rewrite digits_step.
  assert (ML : n mod base < base) by (apply N.mod_lt; lia).
  destruct (n <? base) eqn:L.
  - rewrite (N.mod_small n base) by lia. apply in_first with (d := n); [apply hex_digit_char; lia|lia].
  - apply N.ltb_ge in L. assert (F' : (0 < f)%nat).
    { destruct f; [|lia]. change (N.of_nat 1) with 1 in H. rewrite N.pow_1_r in H. lia. }
    assert (I := IH (n / base) (div_bound _ _ _ (proj1 B) H) F').
    replace (Z.of_N n) with (Z.of_N (n / base) * Z.of_N base + Z.of_N (n mod base))%Z.
    + apply in_digit; [assumption|apply hex_digit_char; lia|lia].
    + assert (D := N.div_mod n base). lia.
Qed.
Lemma show_N_int n : int_number 10 (show_N n) (Z.of_N n).
Proof. apply (digits_int 10); [lia|apply size_bound; lia|lia]. Qed.
Lemma show_Z_lit z : int_lit (show_Z z) z.
Proof.
  destruct z as [|p|p]; cbn [show_Z].
  - apply (il [] false [] 10 [48] 0%Z); [constructor|constructor|]. apply (in_first 10 48 0); [apply (hd_num 0); lia|lia].
  - apply (il [] false [] 10 (show_N (N.pos p)) (Z.pos p)); [constructor|constructor|]. apply show_N_int.
  - change (Z.neg p) with (signed_value true (Z.pos p)).
    apply (il [c_minus] true [] 10 (show_N (N.pos p)) (Z.pos p)); [constructor|constructor|]. apply show_N_int.
Qed.

Lemma digits_hex f : forall n, n < 16 ^ N.of_nat f -> (0 < f)%nat -> hex_number (digits f 16 n []) n.
Proof.
  induction f as [|f IH]; intros n H F; [lia|]. rewrite digits_step.
  assert (ML : n mod 16 < 16) by (apply N.mod_lt; lia).
  destruct (n <? 16) eqn:L.
  - rewrite (N.mod_small n 16) by lia.
    assert (Q := hn_snoc [] 0 _ n hn_nil (hex_digit_char n ltac:(lia))). cbn [app] in Q.
    replace (0 * 16 + n) with n in Q by lia. exact Q.
  - apply N.ltb_ge in L. assert (F' : (0 < f)%nat) by (destruct f; [change (16 ^ N.of_nat 1) with 16 in H|]; lia).
    assert (Q := hn_snoc _ _ _ _ (IH (n / 16) (div_bound 16 _ _ ltac:(lia) H) F') (hex_digit_char (n mod 16) ML)).
    replace (n / 16 * 16 + n mod 16) with n in Q; [exact Q|]. assert (D := N.div_mod n 16). lia.
Qed.
Lemma digits_length base : 2 <= base -> forall f k n, n < base ^ N.of_nat k -> (0 < k)%nat ->
  (length (digits f base n []) <= k)%nat.
Proof.
  intros B f. induction f as [|f IH]; intros k n H K; [cbn; lia|]. rewrite digits_step.
  destruct (n <? base) eqn:L; [cbn; lia|]. rewrite app_length. cbn [length].
  destruct k as [|k]; [lia|]. destruct k; [change (N.of_nat 1) with 1 in H; rewrite N.pow_1_r in H; lia|].
  specialize (IH (S k) (n / base) (div_bound base _ _ B H)). lia.
Qed.
Lemma show_hex_number n : hex_number (show_hex n) n.
Proof. apply digits_hex; [apply size_bound; lia|lia]. Qed.
Lemma show_hex_length n : n < 1114112 -> (1 <= length (show_hex n) <= 6)%nat.
Proof.
  intros H. split.
  - unfold show_hex. rewrite digits_step. destruct (n <? 16); [cbn; lia|]. rewrite app_length. cbn. lia.
  - apply digits_length; [lia| |lia]. cbn. lia.
Qed.

(** every digit is one *)
Lemma digits_dec f : forall n, forallb is_digit (digits f 10 n []) = true.
Proof.
  induction f as [|f IH]; intros n; [reflexivity|]. rewrite digits_step.
  assert (D : is_digit (digit_char (n mod 10)) = true).
  { assert (ML : n mod 10 < 10) by (apply N.mod_lt; lia). unfold digit_char, is_digit.
    replace (n mod 10 <? 10) with true by lia. lia. }
  destruct (n <? 10); [cbn [forallb]; now rewrite D|]. rewrite forallb_app, IH. cbn [forallb]. now rewrite D.
Qed.
Lemma show_N_digits n : digit_str (show_N n).
Proof.
  split; [|apply digits_dec]. unfold show_N. rewrite digits_step.
  destruct (n <? 10); [discriminate|]. destruct (digits _ _ _ _); discriminate.
Qed.
