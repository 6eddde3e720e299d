(** C24, C25: decoded text is valid, results belong to their type, and the
    base64 hint is right.  [has_ty] is in [Typing], [b64_text] in [B64]. *)
From Coq Require Import String Ascii NArith ZArith Lia Bool List.
From Coq Require Import ZifyBool ZifyNat ZifyN.
From Verif Require Import Base Facts Value Data Base64 Parse De Span Ser Wp EnvOk LexSafe Layout Lit Attr ShowFacts LexWs LexRead DocSafe DocRead SerLex LexDoc Typing Typed B64 B64Facts Toy.
Import ListNotations.
Open Scope N_scope.
Open Scope list_scope.
Open Scope m_scope.

Section Proofs.
Context {E : Env} {X : XidOk E}.

Definition any_float (k : fk) (b : N) : Prop := True.
Lemma any_float_in : FloatIn any_float.
Proof. constructor; intros; repeat split. Qed.

(** C24 *)
Theorem C24_well_typed (fok : fk -> N -> Prop) : FloatIn fok -> forall o tenv f t text v, wf_str text ->
  options_from_str o (de_ty tenv f t) text = RValue v -> has_ty tenv fok t v.
Proof. intros FI o tenv f t text v W. apply g_document; [exact W|apply g_de_ty]. Qed.
Theorem C24_valid_text o tenv f t text v : wf_str text ->
  options_from_str o (de_ty tenv f t) text = RValue v -> has_ty tenv any_float t v.
Proof. apply C24_well_typed, any_float_in. Qed.
Theorem C24_non_scalar_in_string o tenv f w0 a e t bs h c r : layout w0 -> attrs_text a e ->
  quoted false t bs -> (1 <= length h <= 6)%nat -> hex_number h c -> is_scalar c = false ->
  exists er sp, options_from_str o (de_ty tenv (S f) TStr)
    (w0 ++ a ++ (c_dq :: t ++ c_bs :: 117 :: c_lc :: h ++ [c_rc]) ++ r) = RError er sp /\
    (er = EInvalidEscape \/ er = EExpectedStringEnd).
Proof.
  intros L HA Q LH HH Sc. cbn [de_ty de_step].
  eapply document_fails_lex with (e := e) (D := anything); auto; [apply value_start_cons; reflexivity || discriminate|exact Logic.I|].
  apply refuses_bind. now apply refuses_string_unicode with bs c.
Qed.
Theorem C24_non_scalar_char o tenv f w0 a e h c r : layout w0 -> attrs_text a e ->
  (1 <= length h <= 6)%nat -> hex_number h c -> is_scalar c = false ->
  exists sp, options_from_str o (de_ty tenv (S f) TChar)
    (w0 ++ a ++ (c_sq :: c_bs :: 117 :: c_lc :: h ++ [c_rc]) ++ r) = RError EInvalidEscape sp.
Proof.
  intros L HA LH HH Sc. cbn [de_ty de_step].
  edestruct (document_fails_lex o (c <- parse_char ;; ret (VChar c)) w0 a e (c_sq :: c_bs :: 117 :: c_lc :: h ++ [c_rc]) r anything (fun e => e = EInvalidEscape))
    as (er & sp & R & ->); auto; [apply value_start_cons; reflexivity || discriminate|exact Logic.I| |eauto].
  apply refuses_bind. now apply refuses_char_unicode with c.
Qed.

(** C25 *)
Lemma refuses_base64 m t s : reads m t anything s ->
  refuses (x <- m ;; @base64_error bytes x) t anything
    (fun e => (forall bs, b64_text s bs -> e = EBase64Hint bs) /\ ((forall bs, ~ b64_text s bs) -> e = EExpectedByteString)).
Proof.
  intros R. rewrite <- (app_nil_r t). eapply reads_refuses; [exact R| |now intros].
  intros T st r J Hs _. unfold base64_error. destruct (try_decode_base64 s) as [bs|] eqn:B.
  - apply wp_fail. split; [|assumption]. split.
    + intros bs' HB. apply base64_decoder in HB. congruence.
    + intros HN. exfalso. apply (HN bs). now apply base64_decoder.
  - apply wp_fail. split; [|assumption]. split; [|reflexivity].
    intros bs' HB. apply base64_decoder in HB. congruence.
Qed.
Theorem C25_base64_hint o tenv f w0 a e t s r : layout w0 -> attrs_text a e -> string_lit t s ->
  exists er sp, options_from_str o (de_ty tenv (S f) TBytes) (w0 ++ a ++ t ++ r) = RError er sp /\
    (forall bs, b64_text s bs -> er = EBase64Hint bs) /\
    ((forall bs, ~ b64_text s bs) -> er = EExpectedByteString).
Proof.
  intros L HA SL. cbn [de_ty de_step].
  eapply document_fails_lex with (e := e) (D := anything); auto; [eapply string_start; exact SL|exact Logic.I|].
  apply refuses_bind. unfold de_bytes.
  apply (reads_refuses _ _ [] t (starts_not (fun d => d =? c_lb)) anything false); [apply reads_check_char_false| |intros r' _; now destruct SL].
  unfold byte_string. destruct SL as [t s W Q|n s W R].
  - apply (reads_refuses _ _ [c_dq] (t ++ [c_dq]) anything anything true); [apply reads_consume_char| |now intros].
    apply refuses_base64. now apply reads_escaped_string.
  - apply (reads_refuses _ _ [] (c_r :: repeat c_hash n ++ c_dq :: s ++ c_dq :: repeat c_hash n) (starts_not (fun d => d =? c_dq)) anything false);
      [apply reads_consume_char_false| |now intros].
    apply (reads_refuses _ _ [c_r] (repeat c_hash n ++ c_dq :: s ++ c_dq :: repeat c_hash n) anything anything true); [apply reads_consume_char| |now intros].
    apply refuses_base64. now apply reads_raw_string.
Qed.
End Proofs.
Print Assumptions C24_well_typed.
Print Assumptions C24_valid_text.
Print Assumptions C24_non_scalar_in_string.
Print Assumptions C24_non_scalar_char.
Print Assumptions C25_base64_hint.

(** ** Examples *)
#[local] Existing Instance Toy.
Definition no_tenv (n : nat) : ty := TUnit.

(** the bit patterns of the width satisfy [FloatIn] *)
Lemma toy_bits : @FloatIn Toy (fun k b => b < 2 ^ f_bits k).
Proof.
  assert (RA : forall k s b, toy_read_abs k s = Some b -> b <= f_nan k).
  { intros k s b. unfold toy_read_abs. destruct (str_eqb s s_inf); [intros H; injection H as <-; destruct k; cbn; lia|].
    destruct (str_eqb s s_NaN); [intros H; injection H as <-; lia|]. destruct (is_nil _); [discriminate|].
    destruct (_ || _); [|discriminate]. destruct (toy_dec _ _ <? f_inf k) eqn:L; intros H; apply some_inj in H; subst b;
    destruct k; cbn in *; lia. }
  constructor.
  - intros k s b H. change (toy_read k s = Some b) in H. unfold toy_read in H. destruct s as [|c s]; [discriminate|].
    assert (NB : f_nan k + f_signbit k < 2 ^ f_bits k) by (destruct k; reflexivity).
    destruct (c =? c_minus).
    + destruct (toy_read_abs k s) as [b'|] eqn:R; [|discriminate]. apply RA in R. cbn [option_map] in H. apply some_inj in H. lia.
    + destruct (c =? c_plus); apply RA in H; lia.
  - intros b _. change (toy_narrow b < 4294967296). unfold toy_narrow, toy_sign.
    assert (DV : (f_abs F64 b - f_inf F64) / 2 ^ 29 < 8388608).
    { assert (AB : f_abs F64 b < 9223372036854775808) by (apply N.mod_lt; discriminate). change (f_inf F64) with 9218868437227405312.
      apply N.div_lt_upper_bound; [discriminate|]. change (2 ^ 29 * 8388608) with 4503599627370496. lia. }
    revert DV. generalize ((f_abs F64 b - f_inf F64) / 2 ^ 29) as d. intros d DV.
    change (f_signbit F32) with 2147483648. change (f_inf F32) with 2139095040.
    destruct (f_sign F64 b); destruct (f_abs F64 b <? 2139095040) eqn:H1; try destruct (f_abs F64 b <? f_inf F64); lia.
  - intros b _. change (toy_widen b < 18446744073709551616). unfold toy_widen, toy_sign.
    assert (AB : f_abs F32 b < 2147483648) by (apply N.mod_lt; discriminate). revert AB. generalize (f_abs F32 b) as a. intros a AB.
    change (f_signbit F64) with 9223372036854775808. change (f_inf F32) with 2139095040. change (f_inf F64) with 9218868437227405312. change (2 ^ 29) with 536870912.
    destruct (f_sign F32 b); destruct (a <? 2139095040) eqn:H1; lia.
  - intros k z. cbn. destruct k; cbn; lia.
  - intros []; cbn; lia.
Qed.
Example C24_ex : options_from_str opts_default (de_ty no_tenv 3 (TTuple [TStr; TChar; TFloat F32; TInt I8]))
  (lit "(""\u{e9}\xF0\x9F\x8F\xA0"", '\u{1F600}', 1.0, -7)")
  = RValue (VTuple [VStr [233; 127968]; VChar 128512; VFloat F32 1; VInt I8 (-7)]).
Proof. vm_compute. reflexivity. Qed.
Example C24_ex_wf : wf_str (lit "(""\u{e9}\xF0\x9F\x8F\xA0"", '\u{1F600}', 1.0, -7)").
Proof. apply wf_lit. vm_compute. reflexivity. Qed.
(** surrogates, whether escaped as code point or as UTF-8 bytes *)
Example C24_ex_surrogate : hex_number (lit "d800") 55296 /\ is_scalar 55296 = false.
Proof.
  split; [|reflexivity].
  apply (hn_snoc (lit "d80") 3456 48 0); [|apply (hd_num 0); lia].
  apply (hn_snoc (lit "d8") 216 48 0); [|apply (hd_num 0); lia].
  apply (hn_snoc (lit "d") 13 56 8); [|apply (hd_num 8); lia].
  apply (hn_snoc [] 0 100 13); [constructor|apply (hd_low 13); lia].
Qed.
Example C24_ex_surrogate_bytes :
  match options_from_str opts_default (de_ty no_tenv 3 TStr) (lit """\xED\xA0\x80""") with
  | RError EInvalidEscape _ => True | _ => False end.
Proof. vm_compute. exact Logic.I. Qed.

Example C25_ex_yes : b64_text (lit "SGVsbG8h") (lit "Hello!") /\ b64_text (lit "SGk=") (lit "Hi") /\ b64_text (lit "SH==") (lit "H").
Proof.
  repeat split; [apply (proj1 (base64_decoder _ _))..]; vm_compute; reflexivity.
Qed.
Example C25_ex_no bs : ~ b64_text (lit "hello") bs.
Proof. intros H. apply base64_decoder in H. vm_compute in H. discriminate. Qed.
Example C25_ex_run :
  match options_from_str opts_default (de_ty no_tenv 3 TBytes) (lit "r#""SGk=""#") with
  | RError (EBase64Hint bs) _ => bs = lit "Hi" | _ => False end.
Proof. vm_compute. reflexivity. Qed.
