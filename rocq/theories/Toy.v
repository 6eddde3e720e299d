(** A concrete [Env] used by examples and refutations.  Identifiers and
    printable characters are the ASCII ones; a finite float is written as the
    decimal number of its magnitude bits. *)
From Coq Require Import String Ascii NArith ZArith Lia Bool List.
From Coq Require Import ZifyBool ZifyNat ZifyN.
From Verif Require Import Base Facts Value Data Parse De Ser EnvOk Lit ShowFacts.
Import ListNotations.
Open Scope N_scope.
Open Scope list_scope.

Fixpoint toy_dec (acc : N) (s : str) : N :=
  match s with [] => acc | c :: s' => toy_dec (acc * 10 + (c - c_0)) s' end.

Definition toy_show (k : fk) (b : N) : str :=
  if f_is_nan k b then s_NaN
  else (if f_sign k b then [c_minus] else []) ++
       (if f_abs k b =? f_inf k then s_inf else show_N (f_abs k b)).

Definition toy_read_abs (k : fk) (s : str) : option N :=
  if str_eqb s s_inf then Some (f_inf k)
  else if str_eqb s s_NaN then Some (f_nan k)
  else
    let ds := takewhile is_digit s in
    let r := dropwhile is_digit s in
    if is_nil ds then None
    else if is_nil r || str_eqb r s_point_zero then
      let v := toy_dec 0 ds in if v <? f_inf k then Some v else Some (f_inf k)
    else None.
Definition toy_read (k : fk) (s : str) : option N :=
  match s with
  | c :: s' =>
      if c =? c_minus then option_map (N.add (f_signbit k)) (toy_read_abs k s')
      else if c =? c_plus then toy_read_abs k s'
      else toy_read_abs k s
  | [] => None
  end.

(** floats other than infinities and NaNs keep their magnitude bits *)
Definition toy_sign (s : bool) (k : fk) (b : N) : N := b + (if s then f_signbit k else 0).
Definition toy_widen (b : N) : N :=
  toy_sign (f_sign F32 b) F64
    (if f_abs F32 b <? f_inf F32 then f_abs F32 b else f_inf F64 + (f_abs F32 b - f_inf F32) * 2 ^ 29).
Definition toy_narrow (b : N) : N :=
  toy_sign (f_sign F64 b) F32
    (if f_abs F64 b <? f_inf F32 then f_abs F64 b else if f_abs F64 b <? f_inf F64 then f_inf F32
     else f_inf F32 + (f_abs F64 b - f_inf F64) / 2 ^ 29).

Definition Toy : Env := {|
  xid_start := is_alpha;
  xid_continue := fun c => is_alpha c || is_digit c || (c =? c_us);
  grapheme_extended := fun c => (768 <=? c) && (c <=? 879);
  printable := fun c => (32 <=? c) && (c <=? 126);
  f_show := toy_show;
  f_read := toy_read;
  f_integral := fun k b => f_abs k b <? f_inf k;
  f_narrow := toy_narrow;
  f_widen := toy_widen;
  f_of_int := fun k z => Z.to_N (Z.abs z) mod 2 ^ f_bits k;
  int128 := true;
|}.

Lemma toy_xid : XidOk Toy.
Proof.
  constructor; cbn; auto.
  - intros c H. now rewrite H.
  - intros c H. unfold is_ws_char, is_alpha, is_digit in *. lia.
Qed.

Lemma toy_dec_app a b : forall acc, toy_dec acc (a ++ b) = toy_dec (toy_dec acc a) b.
Proof. induction a as [|c a IH]; intros acc; [reflexivity|]. cbn [app toy_dec]. apply IH. Qed.
Lemma toy_dec_digits f : forall n, n < 10 ^ N.of_nat f -> toy_dec 0 (digits f 10 n []) = n.
Proof.
  induction f as [|f IH]; intros n H.
  - cbn in *. lia.
  - rewrite digits_step. assert (ML : n mod 10 < 10) by (apply N.mod_lt; lia).
    assert (DC : digit_char (n mod 10) - c_0 = n mod 10).
    { unfold digit_char. replace (n mod 10 <? 10) with true by lia. lia. }
    destruct (n <? 10) eqn:L.
    + cbn [toy_dec]. rewrite DC. rewrite (N.mod_small n 10) by lia. lia.
    + rewrite toy_dec_app, IH by (apply div_bound; [lia|assumption]). cbn [toy_dec]. rewrite DC.
      assert (D := N.div_mod n 10). lia.
Qed.
Lemma toy_dec_show n : toy_dec 0 (show_N n) = n.
Proof. apply toy_dec_digits, size_bound. lia. Qed.

Lemma f_signbit_pos k : 0 < f_signbit k.
Proof. destruct k; reflexivity. Qed.
Lemma f_sign_div k b : b < 2 ^ f_bits k -> b = f_abs k b + (if f_sign k b then f_signbit k else 0).
Proof.
  intros H. unfold f_abs, f_sign, f_signbit.
  assert (TB := N.testbit_spec' b (f_bits k - 1)).
  assert (MP : 2 ^ f_bits k = 2 * 2 ^ (f_bits k - 1)) by (destruct k; reflexivity).
  assert (PP : 2 ^ (f_bits k - 1) <> 0) by (destruct k; discriminate).
  rewrite MP in H. clear MP. set (m := 2 ^ (f_bits k - 1)) in *. clearbody m.
  assert (D := N.div_mod b m PP).
  assert (Q : b / m < 2) by (apply N.div_lt_upper_bound; lia).
  rewrite (N.mod_small (b / m) 2) in TB by assumption.
  destruct (N.testbit b (f_bits k - 1)); cbn [N.b2n] in TB; rewrite <- TB in D; lia.
Qed.

Lemma toy_read_show_abs k n : n < f_inf k -> toy_read_abs k (show_N n ++ s_point_zero) = Some n.
Proof.
  intros H. unfold toy_read_abs. destruct (show_N_digits n) as [NE D].
  assert (HD : exists c t, show_N n = c :: t /\ is_digit c = true).
  { destruct (show_N n) as [|c t]; [contradiction|]. exists c, t. cbn [forallb] in D. apply andb_prop in D. tauto. }
  destruct HD as (c & t & Ec & Dc).
  assert (S1 : str_eqb (show_N n ++ s_point_zero) s_inf = false).
  { rewrite Ec. cbn [app s_inf str_eqb]. unfold s_inf. cbn [str_eqb]. unfold is_digit in Dc. replace (c =? 105) with false by lia. reflexivity. }
  assert (S2 : str_eqb (show_N n ++ s_point_zero) s_NaN = false).
  { rewrite Ec. unfold s_NaN. cbn [app str_eqb]. unfold is_digit in Dc. replace (c =? 78) with false by lia. reflexivity. }
  rewrite S1, S2. rewrite takewhile_app, dropwhile_app by (first [assumption|reflexivity]). cbv zeta.
  replace (is_nil (show_N n)) with false by (rewrite Ec; reflexivity).
  change (is_nil s_point_zero || str_eqb s_point_zero s_point_zero) with true. cbv iota.
  rewrite toy_dec_show. replace (n <? f_inf k) with true by lia. reflexivity.
Qed.

Lemma toy_float : FloatOk Toy.
Proof.
  constructor; cbn [f_show f_read f_integral Toy].
  - intros k b H. unfold toy_show. now rewrite H.
  - intros k b H. unfold toy_show, f_is_nan. rewrite H, N.ltb_irrefl, N.eqb_refl. destruct (f_sign k b); reflexivity.
  - intros k b [H1 H2]. exists (show_N (f_abs k b)), [c_0]. split; [apply show_N_digits|].
    split; [split; [discriminate|reflexivity]|]. unfold toy_show, f_is_nan.
    replace (f_inf k <? f_abs k b) with false by lia. replace (f_abs k b =? f_inf k) with false by lia.
    replace (f_abs k b <? f_inf k) with true by lia. now rewrite app_nil_r.
  - intros k b H. lia.
  - intros k b [H1 H2]. replace (f_abs k b <? f_inf k) with true by lia. cbn [f_point_zero].
    unfold toy_show, f_is_nan.
    replace (f_inf k <? f_abs k b) with false by lia. replace (f_abs k b =? f_inf k) with false by lia.
    assert (FS := f_sign_div k b H1).
    assert (RA := toy_read_show_abs k (f_abs k b) H2). change s_point_zero with [c_dot; c_0] in RA.
    destruct (f_sign k b).
    + cbn [app]. unfold toy_read. cbn [N.eqb Pos.eqb]. rewrite RA. cbn [option_map]. f_equal. lia.
    + cbn [app]. unfold toy_read. destruct (show_N_digits (f_abs k b)) as [NE D].
      destruct (show_N (f_abs k b)) as [|c t] eqn:SN; [contradiction|]. cbn [app forallb] in *.
      unfold is_digit in D. replace (c =? c_minus) with false by lia. replace (c =? c_plus) with false by lia.
      rewrite RA. f_equal. lia.
  - intros []; reflexivity.
  - intros []; reflexivity.
  - intros []; reflexivity.
  - intros []; reflexivity.
Qed.
