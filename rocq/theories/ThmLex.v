(** C01-C06, C47: leaves round trip and literals mean what they say.
    The grammars [string_lit], [bytes_lit], ... are in [Lit]. *)
From Coq Require Import String Ascii NArith ZArith Lia Bool List.
From Coq Require Import ZifyBool ZifyNat ZifyN.
From Verif Require Import Base Facts Value Data Parse De Span Ser Wp EnvOk LexSafe Layout Lit Attr ShowFacts LexWs LexRead DocSafe DocRead SerLex LexDoc Toy.
Import ListNotations.
Open Scope N_scope.
Open Scope list_scope.
Open Scope m_scope.

Section Proofs.
Context {E : Env} {X : XidOk E}.

(** a leaf whose text is read back by [m] *)
Lemma leaf_round_trip {A} (o : opts) (cfg : option pconf) (v : val) (t : str) (m : M A) (D : str -> Prop) (a : A) :
  valid_config cfg -> emits (ser o cfg v) t -> reads m t D a ->
  (forall r, value_start (t ++ r)) -> (forall w, final_layout w -> D w) ->
  exists text, to_string o cfg v = inl text /\
    forall o' w0 w1, layout w0 -> final_layout w1 -> options_from_str o' m (w0 ++ text ++ w1) = RValue a.
Proof.
  intros V EM R VS FD. destruct (to_string_emits o cfg v t V EM) as (a0 & e & TS & HA & _).
  exists (a0 ++ t). split; [assumption|]. intros o' w0 w1 L0 L1. rewrite <- app_assoc.
  apply document_reads_lex with (e := e) (D := D); auto.
Qed.
Lemma reads_typed {A} tenv f ty (m : M A) (g : A -> val) t D a :
  (de_ty tenv (S f) ty = (x <- m ;; ret (g x))) -> reads m t D a -> reads (de_ty tenv (S f) ty) t D (g a).
Proof. intros ->. apply reads_map. Qed.

Lemma string_rt o cfg s tenv f : valid_config cfg -> wf_str s -> exists text, to_string o cfg (VStr s) = inl text /\
  forall o' w0 w1, layout w0 -> final_layout w1 -> options_from_str o' (de_ty tenv (S f) TStr) (w0 ++ text ++ w1) = RValue (VStr s).
Proof.
  intros V W. destruct (emits_str cfg s W) as (t & EM & L).
  eapply leaf_round_trip; [assumption|exact EM|eapply reads_map, reads_string; exact L|intros r; eapply string_start; exact L|].
  exact (fun _ _ => Logic.I).
Qed.
Lemma bytes_rt o cfg b tenv f : valid_config cfg -> Forall (fun x => x < 256) b -> exists text, to_string o cfg (VBytes b) = inl text /\
  forall o' w0 w1, layout w0 -> final_layout w1 -> options_from_str o' (de_ty tenv (S f) TBytes) (w0 ++ text ++ w1) = RValue (VBytes b).
Proof.
  intros V W. destruct (emits_bytes cfg b W) as (t & EM & L).
  eapply leaf_round_trip with (D := anything); [assumption|exact EM| |intros r; eapply bytes_start; exact L|exact (fun _ _ => Logic.I)].
  change (VBytes b) with ((fun b => VBytes b) b). apply reads_map.
  unfold de_bytes. refine (reads_bind _ _ [] t (starts_not (fun d => d =? c_lb)) anything false _ (reads_check_char_false _) _ _).
  - now apply reads_bytes.
  - intros r _. now destruct L.
Qed.
Lemma char_rt o cfg c tenv f : valid_config cfg -> exists text, to_string o cfg (VChar c) = inl text /\
  forall o' w0 w1, layout w0 -> final_layout w1 -> options_from_str o' (de_ty tenv (S f) TChar) (w0 ++ text ++ w1) = RValue (VChar c).
Proof.
  intros V. destruct (emits_char c) as (t & EM & L).
  eapply leaf_round_trip; [assumption|exact EM|eapply reads_map, reads_char; exact L|intros r; eapply char_start; exact L|].
  exact (fun _ _ => Logic.I).
Qed.
Lemma int_lit_show z : int_lit (show_Z z) z.
Proof. apply show_Z_lit. Qed.
Lemma int_rt o cfg k z tenv f : valid_config cfg -> int_supported k = true -> in_range k z = true ->
  exists text, to_string o cfg (VInt k z) = inl text /\
  forall o' w0 w1, layout w0 -> final_layout w1 -> options_from_str o' (de_ty tenv (S f) (TInt k)) (w0 ++ text ++ w1) = RValue (VInt k z).
Proof.
  intros V SP R. assert (EM := emits_int cfg k z SP). assert (L := int_lit_show z).
  eapply leaf_round_trip with (D := starts_not xid_continue); [assumption|exact EM| | |apply final_xid].
  - cbn [de_ty de_step]. rewrite SP. change (VInt k z) with ((fun p => VInt k (snd p)) (k, z)). apply (reads_map _ (fun p => VInt k (snd p))).
    destruct (number_suffixes cfg); [now apply reads_int_suffix|rewrite app_nil_r; now apply reads_int].
  - intros r. rewrite <- app_assoc. eapply int_start; exact L.
Qed.
Lemma float_rt {FO : FloatOk E} o cfg k b tenv f : valid_config cfg -> b < 2 ^ f_bits k ->
  exists text, to_string o cfg (VFloat k b) = inl text /\
  forall o' w0 w1, layout w0 -> final_layout w1 ->
    options_from_str o' (de_ty tenv (S f) (TFloat k)) (w0 ++ text ++ w1) = RValue (VFloat k (canon k b)).
Proof.
  intros V B. assert (EM := emits_float cfg k b). assert (L := float_text_lit k b B).
  assert (L2 : exists sfx, float_lit k sfx (float_text k b ++ (if number_suffixes cfg then fk_suffix k else [])) (canon k b)).
  { destruct (number_suffixes cfg); [exists true; now apply fl_suffix|exists false; now rewrite app_nil_r]. }
  destruct L2 as (sfx & L2).
  eapply leaf_round_trip with (D := float_end); [assumption|exact EM| | |apply final_float].
  - apply (reads_map _ (fun p => VFloat k (snd p)) _ _ (k, canon k b)). eapply reads_float. exact L2.
  - intros r. eapply float_start. exact L2.
Qed.

(** literals at a type, as whole documents *)
Lemma int_literal_doc o k t z tenv f w0 a e w1 : int_supported k = true -> int_lit t z ->
  layout w0 -> attrs_text a e -> final_layout w1 ->
  if in_range k z then options_from_str o (de_ty tenv (S f) (TInt k)) (w0 ++ a ++ t ++ w1) = RValue (VInt k z)
  else exists sp, options_from_str o (de_ty tenv (S f) (TInt k)) (w0 ++ a ++ t ++ w1) = RError EIntegerOutOfBounds sp.
Proof.
  intros SP L W0 A0 W1. cbn [de_ty de_step]. rewrite SP. destruct (in_range k z) eqn:R.
  - eapply document_reads_lex with (D := starts_not xid_continue); try eassumption; [now apply int_start with z|now apply final_xid|].
    apply (reads_map _ (fun p => VInt k (snd p)) _ _ (k, z)). now apply reads_int.
  - destruct (document_fails_lex o (p <- integer (Some k) ;; ret (VInt k (snd p))) w0 a e t w1 (starts_not xid_continue) (fun e => e = EIntegerOutOfBounds))
      as (e' & sp & HR & ->); try assumption; [now apply int_start with z|now apply final_xid|apply refuses_bind; now apply refuses_int with z|].
    eauto.
Qed.
Lemma int_suffix_doc o k k' t z tenv f w0 a e w1 : int_supported k = true -> int_supported k' = true -> int_lit t z ->
  layout w0 -> attrs_text a e -> final_layout w1 ->
  let r := options_from_str o (de_ty tenv (S f) (TInt k)) (w0 ++ a ++ (t ++ ik_suffix k') ++ w1) in
  (in_range k' z = false -> exists sp, r = RError EIntegerOutOfBounds sp) /\
  (in_range k' z = true -> k = k' -> r = RValue (VInt k z)) /\
  (in_range k' z = true -> k <> k' -> exists sp, r = RError EInvalidValueForType sp).
Proof.
  intros SP SP' L W0 A0 W1 r. subst r. cbn [de_ty de_step]. rewrite SP.
  assert (VS : value_start ((t ++ ik_suffix k') ++ w1)) by (rewrite <- app_assoc; now apply int_start with z).
  split; [|split].
  - intros R. destruct (document_fails_lex o (p <- integer (Some k) ;; ret (VInt k (snd p))) w0 a e (t ++ ik_suffix k') w1 (starts_not xid_continue) (fun e => e = EIntegerOutOfBounds))
      as (e' & sp & HR & ->); try assumption; [now apply final_xid|apply refuses_bind; now apply refuses_int_suffix with z|].
    eauto.
  - intros R <-. eapply document_reads_lex with (D := starts_not xid_continue); try eassumption; [now apply final_xid|].
    apply (reads_map _ (fun p => VInt k (snd p)) _ _ (k, z)). now apply reads_int_suffix.
  - intros R NK. destruct (document_fails_lex o (p <- integer (Some k) ;; ret (VInt k (snd p))) w0 a e (t ++ ik_suffix k') w1 (starts_not xid_continue) (fun e => e = EInvalidValueForType))
      as (e' & sp & HR & ->); try assumption; [now apply final_xid|apply refuses_bind; now apply refuses_int_other with z|].
    eauto.
Qed.
End Proofs.

(** ** C01 *)

(** [wf_str s]: every character is a Unicode scalar value, as in any Rust
    string.  [valid_config]: the configuration passes the checks of C41. *)
Theorem C01_string_round_trip : forall {E : Env} {X : XidOk E} o cfg s tenv f,
  valid_config cfg -> wf_str s ->
  exists text, to_string o cfg (VStr s) = inl text /\
    forall o' w0 w1, layout w0 -> final_layout w1 ->
      options_from_str o' (de_ty tenv (S f) TStr) (w0 ++ text ++ w1) = RValue (VStr s).
Proof. exact (fun E X => string_rt). Qed.
Print Assumptions C01_string_round_trip.

(** whatever follows the string inside a document *)
Theorem C01_string_any_suffix : forall {E : Env} cfg s, wf_str s ->
  exists text, emits (ser_str cfg s) text /\
    forall r, exists s', parse_string (init_state (text ++ r)) = Ok s s' /\ rest s' = r.
Proof.
  intros E cfg s W. destruct (emits_str cfg s W) as (t & EM & L). exists t. split; [assumption|].
  intros r. eapply reads_run; [apply reads_string; exact L|exact Logic.I].
Qed.
Print Assumptions C01_string_any_suffix.

(** every spelling of the string literal grammar denotes its string *)
Theorem C01_string_literals : forall {E : Env} {X : XidOk E} o t s tenv f w0 a e w1,
  string_lit t s -> layout w0 -> attrs_text a e -> final_layout w1 ->
  options_from_str o (de_ty tenv (S f) TStr) (w0 ++ a ++ t ++ w1) = RValue (VStr s).
Proof.
  intros E X o t s tenv f w0 a e w1 L W0 A0 W1.
  apply document_reads_lex with (e := e) (D := anything); auto; [now apply string_start with s|exact Logic.I|].
  apply (reads_map _ (fun s => VStr s)). now apply reads_string.
Qed.
Print Assumptions C01_string_literals.

Definition unescaped : pconf :=
  PConf None [10] [32] [32] false false false (Exts true false false true) false false false false true None false.
Definition sample_str : str := [c_dq; c_hash; c_hash; c_bs; 0; 128512; 10].
Example C01_example : valid_config (Some unescaped) /\ wf_str sample_str /\
  @to_string Toy opts_default (Some unescaped) (VStr sample_str) =
    inl (lit "#![enable(unwrap_newtypes)]" ++ [10] ++ lit "#![enable(explicit_struct_names)]" ++ [10] ++
         lit "r###" ++ [c_dq] ++ sample_str ++ [c_dq] ++ lit "###").
Proof. repeat split; repeat constructor. Qed.

(** ** C02 *)
Theorem C02_bytes_round_trip : forall {E : Env} {X : XidOk E} o cfg b tenv f,
  valid_config cfg -> Forall (fun x => x < 256) b ->
  exists text, to_string o cfg (VBytes b) = inl text /\
    forall o' w0 w1, layout w0 -> final_layout w1 ->
      options_from_str o' (de_ty tenv (S f) TBytes) (w0 ++ text ++ w1) = RValue (VBytes b).
Proof. exact (fun E X => bytes_rt). Qed.
Print Assumptions C02_bytes_round_trip.

Theorem C02_bytes_any_suffix : forall {E : Env} cfg b, Forall (fun x => x < 256) b ->
  exists text, emits (ser_bytes cfg b) text /\
    forall r, exists s', de_bytes (init_state (text ++ r)) = Ok b s' /\ rest s' = r.
Proof.
  intros E cfg b W. destruct (emits_bytes cfg b W) as (t & EM & L). exists t. split; [assumption|].
  intros r. eapply reads_run with (D := anything); [|exact Logic.I].
  unfold de_bytes. refine (reads_bind _ _ [] t (starts_not (fun d => d =? c_lb)) anything false _ (reads_check_char_false _) _ _).
  - now apply reads_bytes.
  - intros r' _. now destruct L.
Qed.
Print Assumptions C02_bytes_any_suffix.

Example C02_example : Forall (fun x => x < 256) [255; 34; 0; 97] /\
  @to_string Toy opts_default (Some unescaped) (VBytes [255; 34; 0; 97]) =
    inl (lit "#![enable(unwrap_newtypes)]" ++ [10] ++ lit "#![enable(explicit_struct_names)]" ++ [10] ++
         [c_b; c_dq] ++ lit "\xff\" ++ [c_dq] ++ lit "\x00a" ++ [c_dq]).
Proof. split; repeat constructor. Qed.

(** ** C03 *)
Theorem C03_char_round_trip : forall {E : Env} {X : XidOk E} o cfg c tenv f,
  valid_config cfg ->
  exists text, to_string o cfg (VChar c) = inl text /\
    forall o' w0 w1, layout w0 -> final_layout w1 ->
      options_from_str o' (de_ty tenv (S f) TChar) (w0 ++ text ++ w1) = RValue (VChar c).
Proof. exact (fun E X => char_rt). Qed.
Print Assumptions C03_char_round_trip.

Theorem C03_char_any_suffix : forall {E : Env} c,
  exists text, emits (ser_char c) text /\
    forall r, exists s', parse_char (init_state (text ++ r)) = Ok c s' /\ rest s' = r.
Proof.
  intros E c. destruct (emits_char c) as (t & EM & L). exists t. split; [assumption|].
  intros r. eapply reads_run; [apply reads_char; exact L|exact Logic.I].
Qed.
Print Assumptions C03_char_any_suffix.

(** the escapes of the character grammar *)
Theorem C03_char_literals : forall {E : Env} {X : XidOk E} o t c tenv f w0 a e w1,
  char_lit t c -> layout w0 -> attrs_text a e -> final_layout w1 ->
  options_from_str o (de_ty tenv (S f) TChar) (w0 ++ a ++ t ++ w1) = RValue (VChar c).
Proof.
  intros E X o t s tenv f w0 a e w1 L W0 A0 W1.
  apply document_reads_lex with (e := e) (D := anything); auto; [now apply char_start with s|exact Logic.I|].
  apply (reads_map _ (fun s => VChar s)). now apply reads_char.
Qed.
Print Assumptions C03_char_literals.
Example C03_example : @to_string Toy opts_default None (VChar c_sq) = inl (lit "'\''") /\ char_lit (lit "'\u{1F600}'") 128512.
Proof.
  split; [reflexivity|]. apply (cl_unicode (lit "1F600") 128512); [cbn; lia| |reflexivity].
  apply (hn_snoc (lit "1F60") 8032 48 0); [|apply (hd_num 0); lia].
  apply (hn_snoc (lit "1F6") 502 48 0); [|apply (hd_num 0); lia].
  apply (hn_snoc (lit "1F") 31 54 6); [|apply (hd_num 6); lia].
  apply (hn_snoc (lit "1") 1 70 15); [|apply (hd_up 15); lia].
  apply (hn_snoc [] 0 49 1); [constructor|apply (hd_num 1); lia].
Qed.

(** ** C04: [int_supported] holds of every type, or of every type but the
    128-bit ones, depending on the integer128 feature *)
Theorem C04_int_round_trip : forall {E : Env} {X : XidOk E} o cfg k z tenv f,
  valid_config cfg -> int_supported k = true -> in_range k z = true ->
  exists text, to_string o cfg (VInt k z) = inl text /\
    forall o' w0 w1, layout w0 -> final_layout w1 ->
      options_from_str o' (de_ty tenv (S f) (TInt k)) (w0 ++ text ++ w1) = RValue (VInt k z).
Proof. exact (fun E X => int_rt). Qed.
Print Assumptions C04_int_round_trip.

(** whatever follows that cannot continue a number *)
Theorem C04_int_any_suffix : forall {E : Env} {X : XidOk E} cfg k z,
  int_supported k = true -> in_range k z = true ->
  exists text, emits (ser_int cfg k z) text /\
    forall r, starts_not xid_continue r ->
      exists s', integer (Some k) (init_state (text ++ r)) = Ok (k, z) s' /\ rest s' = r.
Proof.
  intros E X cfg k z SP R. eexists. split; [apply emits_int; assumption|]. intros r D.
  eapply reads_run; [|exact D].
  destruct (number_suffixes cfg); [apply reads_int_suffix; auto; apply show_Z_lit|rewrite app_nil_r; apply reads_int; auto; apply show_Z_lit].
Qed.
Print Assumptions C04_int_any_suffix.
Definition suffixed : pconf :=
  PConf None [10] [32] [32] false false false exts_empty false true false false true None false.
Example C04_example : in_range I128 (- 2 ^ 127) = true /\
  @to_string Toy opts_default (Some suffixed) (VInt I128 (- 2 ^ 127)) = inl (lit "-170141183460469231731687303715884105728i128").
Proof. split; reflexivity. Qed.

(** ** C05 *)

(** without suffix *)
Theorem C05_int_literals : forall {E : Env} {X : XidOk E} o k t z tenv f w0 a e w1,
  int_supported k = true -> int_lit t z -> layout w0 -> attrs_text a e -> final_layout w1 ->
  if in_range k z then options_from_str o (de_ty tenv (S f) (TInt k)) (w0 ++ a ++ t ++ w1) = RValue (VInt k z)
  else exists sp, options_from_str o (de_ty tenv (S f) (TInt k)) (w0 ++ a ++ t ++ w1) = RError EIntegerOutOfBounds sp.
Proof. exact (fun E X => int_literal_doc). Qed.
Print Assumptions C05_int_literals.

(** with the suffix of a type [k'] *)
Theorem C05_int_suffix : forall {E : Env} {X : XidOk E} o k k' t z tenv f w0 a e w1,
  int_supported k = true -> int_supported k' = true -> int_lit t z ->
  layout w0 -> attrs_text a e -> final_layout w1 ->
  let r := options_from_str o (de_ty tenv (S f) (TInt k)) (w0 ++ a ++ (t ++ ik_suffix k') ++ w1) in
  (in_range k' z = false -> exists sp, r = RError EIntegerOutOfBounds sp) /\
  (in_range k' z = true -> k = k' -> r = RValue (VInt k z)) /\
  (in_range k' z = true -> k <> k' -> exists sp, r = RError EInvalidValueForType sp).
Proof. exact (fun E X => int_suffix_doc). Qed.
Print Assumptions C05_int_suffix.

(** the digits mean what positional notation says: least significant last *)
Theorem C05_int_number_value : forall base ds z c d, int_number base (ds ++ [c]) z -> ds <> [] ->
  hex_digit c d -> exists z', int_number base ds z' /\ z = (z' * base + Z.of_N d)%Z.
Proof.
  intros base ds z c d H NE HX. inversion H as [c0 d0 D0 L0 Q|s z0 c0 d0 N0 D0 L0 Q|s z0 N0 Q]; subst.
  - destruct ds; [contradiction|]. destruct ds; discriminate.
  - apply app_inj_tail in Q as [-> ->]. exists z0. split; [assumption|].
    assert (d0 = d) as ->; [|reflexivity]. apply hex_digit_val in D0, HX. congruence.
  - apply app_inj_tail in Q as [-> <-]. apply hex_digit_bound in HX. lia.
Qed.
Print Assumptions C05_int_number_value.
Example C05_example : int_lit (lit "-0xF_f") (-255) /\ in_range I8 (-255) = false /\ in_range I16 (-255) = true.
Proof.
  split; [|split; reflexivity].
  apply (il [c_minus] true s_0x 16 (lit "F_f") 255); [constructor|constructor|].
  apply (in_digit 16 (lit "F_") 15 102 15); [|apply (hd_low 15); lia|lia].
  apply (in_under 16 (lit "F") 15). apply (in_first 16 70 15); [apply (hd_up 15); lia|lia].
Qed.

(** ** C06 *)

(** the words the deserializer gives a meaning of their own *)
Definition keywords : list str :=
  map lit ["true"; "false"; "Some"; "None"; "inf"; "inff32"; "inff64"; "NaN"; "NaNf32"; "NaNf64"]%string.

Theorem C06_identifier_round_trip : forall {E : Env} {X : XidOk E} n,
  n <> [] -> forallb is_ident_raw_char n = true ->
  exists text, emits (write_identifier n) text /\
    forall r, ident_end r ->
      (exists s', identifier (init_state (text ++ r)) = Ok n s' /\ rest s' = r) /\
      (forall w, In w keywords -> consume_ident w (init_state (text ++ r)) = Ok false (init_state (text ++ r))).
Proof.
  intros E X n NE F. assert (V : valid_identifier n = true).
  { unfold valid_identifier. rewrite F. now destruct n. }
  exists (ident_text n). split; [now apply emits_identifier|]. intros r D. split.
  - eapply reads_run; [apply reads_identifier, ident_text_lit; assumption|assumption].
  - intros w IW. apply consume_ident_false. now apply ident_text_keyword.
Qed.
Print Assumptions C06_identifier_round_trip.

(** any other name is refused, and nothing of it is written *)
Theorem C06_identifier_refused : forall {E : Env} n s,
  n = [] \/ forallb is_ident_raw_char n = false ->
  write_identifier n s = SErr (EInvalidIdentifier n) s.
Proof.
  intros E n s H. apply identifier_refused. unfold valid_identifier. destruct n as [|c n]; [reflexivity|].
  destruct H as [H|H]; [discriminate|]. now rewrite H.
Qed.
Print Assumptions C06_identifier_refused.

(** and no spelling of it exists *)
Theorem C06_refused_unreadable : forall {E : Env} {X : XidOk E} n,
  n = [] \/ forallb is_ident_raw_char n = false -> forall t, ~ ident_lit t n.
Proof.
  intros E X n H t L. destruct L as [c r F1 F2|n NE F].
  - destruct H as [H|H]; [discriminate|]. rewrite ident_plain_raw in H by assumption. discriminate.
  - destruct H as [H|H]; [contradiction|congruence].
Qed.
Print Assumptions C06_refused_unreadable.
Example C06_example : exists s, @write_identifier Toy (lit "true") (ser_init opts_default None None) = SOk tt s /\ w_out s = lit "r#true".
Proof. eexists. split; reflexivity. Qed.
Example C06_example_refused : @write_identifier Toy (lit "a b") (ser_init opts_default None None) =
  SErr (EInvalidIdentifier (lit "a b")) (ser_init opts_default None None).
Proof. reflexivity. Qed.

(** ** C47: [canon] replaces the payload of a NaN by the default one and keeps
    the sign; every other float is unchanged *)
Theorem C47_float_round_trip : forall {E : Env} {X : XidOk E} {FO : FloatOk E} o cfg k b tenv f,
  valid_config cfg -> b < 2 ^ f_bits k ->
  exists text, to_string o cfg (VFloat k b) = inl text /\
    forall o' w0 w1, layout w0 -> final_layout w1 ->
      options_from_str o' (de_ty tenv (S f) (TFloat k)) (w0 ++ text ++ w1) = RValue (VFloat k (canon k b)).
Proof. exact (fun E X FO => float_rt). Qed.
Print Assumptions C47_float_round_trip.
Theorem C47_canon : forall k b, b < 2 ^ f_bits k ->
  (f_is_nan k b = false -> canon k b = b) /\
  (f_is_nan k b = true -> f_is_nan k (canon k b) = true /\ f_sign k (canon k b) = f_sign k b).
Proof.
  intros k b B. unfold canon. split; intros H; rewrite H; [reflexivity|].
  destruct k, (f_sign _ b); split; reflexivity.
Qed.
Print Assumptions C47_canon.
Example C47_example : f_sign F32 (f_nan F32 + f_signbit F32 + 1) = true /\
  @to_string Toy opts_default (Some suffixed) (VFloat F32 (f_nan F32 + f_signbit F32 + 1)) = inl (lit "-NaNf32").
Proof. split; reflexivity. Qed.
