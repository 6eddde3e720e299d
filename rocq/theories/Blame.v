(** Errors about the fields of structs come from structs only, and name them;
    errors about variants come from enums, and name them. *)
From Coq Require Import String Ascii NArith ZArith Lia Bool List.
From Verif Require Import Base Facts Value Data Parse De Span StructSpec.
Import ListNotations.
Open Scope N_scope.
Open Scope list_scope.
Open Scope m_scope.

Inductive label_error : err -> Prop :=
  | le_missing f l : label_error (EMissingStructField f l)
  | le_duplicate f l : label_error (EDuplicateStructField f l)
  | le_unknown f l : label_error (ENoSuchStructField f l)
  | le_variant v l : label_error (ENoSuchEnumVariant v l).
Lemma field_label x : field_error x -> label_error x.
Proof. destruct 1; constructor. Qed.

(** ** The lexer makes no such errors, and leaves the mode alone *)
Definition quiet {A} (m : M A) : Prop := forall s,
  match m s with
  | Ok _ s' => ext s' = ext s /\ nt s' = nt s /\ last_id s' = last_id s
  | Err x s' => (ext s' = ext s /\ nt s' = nt s /\ last_id s' = last_id s) /\ ~ label_error x
  | _ => True
  end.
Definition calm (x : err) : Prop := ~ label_error x.

Lemma quiet_bind {A B} (m : M A) (k : A -> M B) : quiet m -> (forall a, quiet (k a)) -> quiet (bind m k).
Proof.
  intros H K s. specialize (H s). unfold bind. destruct (m s) as [a s'|x s'| |]; auto.
  specialize (K a s'). destruct H as (<- & <- & <-). exact K.
Qed.
Lemma quiet_get {B} (k : st -> M B) : (forall s, quiet (k s)) -> quiet (bind get k).
Proof. intros K s. apply K. Qed.
Lemma quiet_try {A B} (m : M A) (f : A -> M B) g : quiet m -> (forall a, quiet (f a)) -> (forall e, ~ label_error e -> quiet (g e)) -> quiet (try m f g).
Proof.
  intros H F G s. specialize (H s). unfold try. destruct (m s) as [a s'|x s'| |]; auto.
  - specialize (F a s'). destruct H as (<- & <- & <-). exact F.
  - destruct H as ((<- & <- & <-) & N). exact (G x N s').
Qed.
Lemma quiet_map_err {A} f (m : M A) : (forall x, ~ label_error x -> ~ label_error (f x)) -> quiet m -> quiet (map_err f m).
Proof.
  intros F H s. specialize (H s). unfold map_err, try. destruct (m s) as [a s'|x s'| |]; cbn; auto.
  destruct H as (H & N). split; [exact H|now apply F].
Qed.
Lemma quiet_ret {A} (a : A) : quiet (ret a).
Proof. intros s. cbn. auto. Qed.
Lemma quiet_fail {A} x : ~ label_error x -> quiet (@fail A x).
Proof. intros H s. cbn. auto. Qed.
Lemma quiet_oof {A} : quiet (@oof A).
Proof. intros s. exact Logic.I. Qed.
Lemma quiet_panic {A} : quiet (@panic A).
Proof. intros s. exact Logic.I. Qed.
Lemma quiet_src : quiet src.
Proof. intros s. cbn. auto. Qed.
Lemma quiet_pre_ws : quiet pre_ws_src.
Proof. intros s. cbn. auto. Qed.
Lemma quiet_of_slice {A} (o : option A) : quiet (of_slice o).
Proof. destruct o; [apply quiet_ret|apply quiet_panic]. Qed.
Lemma quiet_modify f : (forall s, ext (f s) = ext s /\ nt (f s) = nt s /\ last_id (f s) = last_id s) -> quiet (modify f).
Proof. intros H s. apply H. Qed.
Lemma quiet_cursor : quiet get_cursor_m.
Proof. intros s. cbn. auto. Qed.
Lemma quiet_set_cursor c : quiet (set_cursor_m c).
Proof. apply quiet_modify. intros s. destruct c as [[r p] w]. cbn. auto. Qed.
Lemma quiet_advance n : quiet (advance_bytes n).
Proof. intros s. unfold advance_bytes. destruct (bdrop n (rest s)); cbn; auto. Qed.
Lemma quiet_next_char : quiet next_char.
Proof. intros s. unfold next_char. destruct (rest s); cbn; auto. split; auto. intros H. inversion H. Qed.
Lemma quiet_peek : quiet peek_char.
Proof. intros s. cbn. auto. Qed.
Lemma quiet_peek_eof : quiet peek_char_or_eof.
Proof. intros s. unfold peek_char_or_eof. destruct (rest s); cbn; auto. split; auto. intros H. inversion H. Qed.
Lemma quiet_check_char c : quiet (check_char c).
Proof. intros s. cbn. auto. Qed.
Lemma quiet_check_str c : quiet (check_str c).
Proof. intros s. cbn. auto. Qed.
Lemma quiet_track : quiet (modify track_ws).
Proof. apply quiet_modify. intros s. unfold track_ws. destruct (last_ws s); [|auto]. destruct (Nat.ltb _ _); cbn; auto. Qed.
Lemma quiet_update : quiet update_last_ws.
Proof. intros s. unfold update_last_ws. destruct (Nat.leb _ _); cbn; auto. Qed.
Lemma quiet_unclosed : quiet has_unclosed_line_comment.
Proof. intros s. cbn. auto. Qed.
Create HintDb quiet.
#[local] Hint Resolve quiet_ret quiet_oof quiet_panic quiet_src quiet_pre_ws quiet_of_slice quiet_cursor quiet_set_cursor
  quiet_advance quiet_next_char quiet_peek quiet_peek_eof quiet_check_char quiet_check_str quiet_track quiet_update quiet_unclosed : quiet.
Ltac not_field := solve [assumption|let H := fresh in intros H; solve [inversion H]|match goal with H : ~ label_error _ |- _ => exfalso; apply H; constructor end].
#[local] Hint Extern 1 (quiet (fail _)) => apply quiet_fail; not_field : quiet.

Ltac ql1 :=
  match goal with
  | |- quiet (bind get _) => apply quiet_get; intros ?
  | |- quiet (bind _ _) => apply quiet_bind; [|intros ?]
  | |- quiet (try _ _ _) => apply quiet_try; [|intros ?|intros ? ?]
  | |- quiet (map_err _ _) => apply quiet_map_err; [intros [] ?; try assumption; not_field|]
  | |- quiet (modify (set_last_ws _)) => apply quiet_modify; intros; cbn; auto
  | |- _ => solve [auto with quiet]
  | |- quiet (match ?x with _ => _ end) => destruct x
  | |- quiet (let _ := _ in _) => cbv zeta
  end.
Ltac ql := cbv zeta; repeat ql1.

Section WithEnv.
Context {E : Env}.
Lemma quiet_skip_next : quiet skip_next_char.
Proof. unfold skip_next_char. ql. Qed.
Lemma quiet_consume_str p : quiet (consume_str p).
Proof. unfold consume_str. ql. Qed.
Lemma quiet_consume_char p : quiet (consume_char p).
Proof. unfold consume_char. ql. Qed.
#[local] Hint Resolve quiet_skip_next quiet_consume_str quiet_consume_char : quiet.
Lemma quiet_expect c e : ~ label_error e -> quiet (expect_char c e).
Proof. intros H. unfold expect_char. ql. Qed.
#[local] Hint Extern 1 (quiet (expect_char _ _)) => apply quiet_expect; not_field : quiet.
Lemma quiet_while_from n p : quiet (next_chars_while_from_len n p).
Proof. unfold next_chars_while_from_len. ql. Qed.
#[local] Hint Resolve quiet_while_from : quiet.
Lemma quiet_while p : quiet (next_chars_while_len p).
Proof. unfold next_chars_while_len. ql. Qed.
Lemma quiet_ident_other n : quiet (check_ident_other_char n).
Proof. unfold check_ident_other_char. ql. Qed.
#[local] Hint Resolve quiet_while quiet_ident_other : quiet.
Lemma quiet_check_ident n : quiet (check_ident n).
Proof. unfold check_ident. ql. Qed.
#[local] Hint Resolve quiet_check_ident : quiet.
Lemma quiet_consume_ident n : quiet (consume_ident n).
Proof. unfold consume_ident. ql. Qed.
#[local] Hint Resolve quiet_consume_ident : quiet.
Lemma quiet_block f : forall n, quiet (block_loop f n).
Proof. induction f as [|f IH]; intros [|n]; cbn [block_loop]; ql. Qed.
#[local] Hint Resolve quiet_block : quiet.
Lemma quiet_comment : quiet skip_comment.
Proof. unfold skip_comment. ql. Qed.
#[local] Hint Resolve quiet_comment : quiet.
Lemma quiet_ws_loop f : quiet (ws_loop f).
Proof. induction f as [|f IH]; cbn [ws_loop]; ql. Qed.
#[local] Hint Resolve quiet_ws_loop : quiet.
Lemma quiet_skip_ws : quiet skip_ws.
Proof. unfold skip_ws. ql. Qed.
#[local] Hint Resolve quiet_skip_ws : quiet.
Lemma quiet_comma : quiet comma.
Proof. unfold comma. ql. Qed.
Lemma quiet_consume_all l : quiet (consume_all l).
Proof. induction l as [|p l IH]; cbn [consume_all]; ql. Qed.
Lemma quiet_skip_identifier : quiet skip_identifier.
Proof. unfold skip_identifier. ql. Qed.
Lemma quiet_identifier : quiet identifier.
Proof. unfold identifier. ql. Qed.
#[local] Hint Resolve quiet_comma quiet_consume_all quiet_skip_identifier quiet_identifier : quiet.
Lemma quiet_struct_name n : quiet (consume_struct_name n).
Proof. unfold consume_struct_name. ql. Qed.
#[local] Hint Resolve quiet_struct_name : quiet.
Lemma quiet_decode_hex c : quiet (decode_hex c).
Proof. unfold decode_hex. ql. Qed.
#[local] Hint Resolve quiet_decode_hex : quiet.
Lemma quiet_int_digits k base neg whole i ds : forall acc, quiet (int_digits k base neg whole i ds acc).
Proof. revert i. induction ds as [|c ds IH]; intros i acc; cbn [int_digits]; ql. Qed.
#[local] Hint Resolve quiet_int_digits : quiet.
Lemma quiet_parse_integer k neg base : quiet (parse_integer k neg base).
Proof. unfold parse_integer. ql. Qed.
#[local] Hint Resolve quiet_parse_integer : quiet.
Lemma quiet_int_parse t neg base : quiet (int_parse t neg base).
Proof. unfold int_parse. ql. Qed.
Lemma quiet_try_int t p : quiet (try_from_parsed_integer t p).
Proof. unfold try_from_parsed_integer. ql. Qed.
Lemma quiet_int_suffix l : quiet (consume_int_suffix l).
Proof. induction l as [|k l IH]; cbn [consume_int_suffix]; ql. Qed.
Lemma quiet_decode_ascii : quiet decode_ascii_escape.
Proof. unfold decode_ascii_escape. ql. Qed.
#[local] Hint Resolve quiet_int_parse quiet_try_int quiet_int_suffix quiet_decode_ascii : quiet.
Lemma quiet_escape_more n : forall acc, quiet (escape_more n acc).
Proof. induction n as [|n IH]; intros acc; cbn [escape_more]; ql. Qed.
Lemma quiet_unicode_digits n : forall c acc, quiet (unicode_digits n c acc).
Proof. induction n as [|n IH]; intros c acc; cbn [unicode_digits]; ql. Qed.
#[local] Hint Resolve quiet_escape_more quiet_unicode_digits : quiet.
Lemma quiet_escape b c : quiet (parse_escape b c).
Proof. unfold parse_escape. ql. Qed.
Lemma quiet_slice_before a b : quiet (slice_before a b).
Proof. unfold slice_before. ql. Qed.
#[local] Hint Resolve quiet_escape quiet_slice_before : quiet.
Lemma quiet_byte_literal t b : quiet (byte_literal t b).
Proof. unfold byte_literal. ql. Qed.
Lemma quiet_integer_body t neg base b : quiet (integer_body t neg base b).
Proof. unfold integer_body. ql. Qed.
#[local] Hint Resolve quiet_byte_literal quiet_integer_body : quiet.
Lemma quiet_integer t : quiet (integer t).
Proof. unfold integer. ql. Qed.
Lemma quiet_float_parse t s : quiet (float_parse t s).
Proof. unfold float_parse. ql. Qed.
Lemma quiet_try_float t p : quiet (try_from_parsed_float t p).
Proof. unfold try_from_parsed_float. ql. Qed.
#[local] Hint Resolve quiet_integer quiet_float_parse quiet_try_float : quiet.
Lemma quiet_float_lits t l : quiet (float_lits t l).
Proof. induction l as [|[[w a] b] l IH]; cbn [float_lits]; ql. Qed.
#[local] Hint Resolve quiet_float_lits : quiet.
Lemma quiet_float t : quiet (float t).
Proof. unfold float. ql. Qed.
Lemma quiet_is_float : quiet next_bytes_is_float.
Proof. unfold next_bytes_is_float. ql. Qed.
#[local] Hint Resolve quiet_float quiet_is_float : quiet.
Lemma quiet_any_number : quiet any_number.
Proof. unfold any_number. ql. Qed.
Lemma quiet_bool : quiet parse_bool.
Proof. unfold parse_bool. ql. Qed.
Lemma quiet_char : quiet parse_char.
Proof. unfold parse_char. ql. Qed.
#[local] Hint Resolve quiet_any_number quiet_bool quiet_char : quiet.
Lemma quiet_escaped_loop n : forall b acc x, quiet (escaped_loop n b acc x).
Proof. induction n as [|n IH]; intros b acc x; cbn [escaped_loop]; ql. Qed.
#[local] Hint Resolve quiet_escaped_loop : quiet.
Lemma quiet_escaped_buf b : quiet (escaped_byte_buf b).
Proof. unfold escaped_byte_buf. ql. Qed.
Lemma quiet_raw_buf : quiet raw_byte_buf.
Proof. unfold raw_byte_buf. ql. Qed.
#[local] Hint Resolve quiet_escaped_buf quiet_raw_buf : quiet.
Lemma quiet_string : quiet parse_string.
Proof. unfold parse_string, escaped_string, raw_string, finish_string. ql. Qed.
#[local] Hint Resolve quiet_string : quiet.
Lemma quiet_bytes_no_base64 : quiet byte_string_no_base64.
Proof. unfold byte_string_no_base64, escaped_byte_string, raw_byte_string, finish_bytes. ql. Qed.
Lemma quiet_base64_error {A} s : quiet (@base64_error A s).
Proof. unfold base64_error. ql. Qed.
#[local] Hint Resolve quiet_bytes_no_base64 quiet_base64_error : quiet.
Lemma quiet_byte_string : quiet byte_string.
Proof. unfold byte_string, escaped_string, raw_string, finish_string. ql. Qed.
Lemma quiet_braces n : forall b, quiet (braces_loop n b).
Proof. induction n as [|n IH]; intros [|b]; cbn [braces_loop]; unfold attempt; ql. Qed.
#[local] Hint Resolve quiet_byte_string quiet_braces : quiet.
Lemma quiet_struct_type u p : quiet (check_struct_type u p).
Proof. unfold check_struct_type, check_struct_type_inner. ql. Qed.
#[local] Hint Resolve quiet_struct_type : quiet.

(** ** The deserializer *)
Section Mode.
Variable e : exts.
Hypothesis UV : x_unwrap_variant_newtypes e = false.

(** where variants are not unwrapped, errors about fields satisfy [P] *)
Definition tri {A} (P : err -> Prop) (m : M A) : Prop := forall s, ext s = e -> nt s = false ->
  match m s with
  | Ok _ s' => ext s' = e /\ nt s' = false
  | Err x _ => field_error x -> P x
  | _ => True
  end.

Lemma tri_quiet {A} P (m : M A) : quiet m -> tri P m.
Proof.
  intros H s X N. specialize (H s). destruct (m s) as [a s'|x s'| |]; auto.
  - destruct H as (-> & -> & _). auto.
  - intros F. apply field_label in F. tauto.
Qed.
Lemma tri_bind {A B} P (m : M A) (k : A -> M B) : tri P m -> (forall a, tri P (k a)) -> tri P (bind m k).
Proof.
  intros H K s X N. specialize (H s X N). unfold bind. destruct (m s) as [a s'|x s'| |]; auto.
  apply K; apply H.
Qed.
Lemma tri_get {B} P (k : st -> M B) : (forall s, ext s = e -> nt s = false -> tri P (k s)) -> tri P (bind get k).
Proof. intros K s X N. now apply K. Qed.
Lemma tri_map_err {A} (P Q : err -> Prop) f (m : M A) :
  (forall x, field_error (f x) -> field_error x /\ (Q x -> P (f x))) -> tri Q m -> tri P (map_err f m).
Proof.
  intros F H s X N. specialize (H s X N). unfold map_err, try. destruct (m s) as [a s'|x s'| |]; auto.
  cbn. intros G. destruct (F x G); auto.
Qed.
Lemma tri_imp {A} (P Q : err -> Prop) (m : M A) : (forall x, Q x -> P x) -> tri Q m -> tri P m.
Proof. intros F H s X N. specialize (H s X N). destruct (m s); auto. Qed.
Lemma tri_guard {A} P r (m : M A) : tri P m -> tri P (guard_with r m).
Proof.
  intros H s X N. unfold guard_with. destruct (lim s) as [[|l]|]; [|specialize (H (set_lim (Some l) s) X N)|exact (H s X N)].
  - intros F. inversion F.
  - destruct (m _) as [a s'|x s'| |]; auto.
Qed.
Lemma tri_fail {A} (P : err -> Prop) x : (field_error x -> P x) -> tri P (@fail A x).
Proof. intros H s X N. exact H. Qed.
Lemma tri_modify P f : (forall s, ext s = e -> nt s = false -> ext (f s) = e /\ nt (f s) = false) -> tri P (modify f).
Proof. intros H s X N. now apply H. Qed.

Create HintDb tri.
Ltac no_field_error := let H := fresh in intros H; solve [inversion H].
Ltac tr1 :=
  match goal with
  | |- tri _ (bind get _) => apply tri_get; intros ? ? ?
  | H : nt ?s = false |- tri _ (bind (if nt ?s then _ else _) _) => rewrite H
  | |- tri _ (bind _ _) => apply tri_bind; [|intros ?]
  | |- tri _ (guard _) => apply tri_guard
  | |- tri _ (guard_r _) => apply tri_guard
  | |- tri _ (modify _) => apply tri_modify; intros; cbn; split; congruence
  | |- tri _ (fail _) => apply tri_fail; no_field_error
  | |- _ => solve [auto with tri]
  | |- tri _ _ => apply tri_quiet; solve [auto with quiet]
  | H : nt ?s = false |- tri _ (if nt ?s then _ else _) => rewrite H
  | |- tri _ (match ?x with _ => _ end) => destruct x
  end.
Ltac tr := cbv zeta; repeat tr1.

Lemma tri_has_element P t h : tri P (has_element t h).
Proof. unfold has_element. tr. Qed.
#[local] Hint Resolve tri_has_element : tri.
Lemma tri_next_element {A} P t (m : M A) h : tri P m -> tri P (next_element t m h).
Proof. intros H. unfold next_element. tr. Qed.
#[local] Hint Resolve tri_next_element : tri.
Lemma tri_seq_loop {A} P t (m : M A) n : tri P m -> forall h, tri P (seq_loop n t m h).
Proof. intros H. induction n as [|n IH]; intros h; cbn [seq_loop]; tr. Qed.
#[local] Hint Resolve tri_seq_loop : tri.
Lemma tri_seq_all {A} P t (m : M A) : tri P m -> tri P (seq_all t m).
Proof. intros H. unfold seq_all. tr. Qed.
#[local] Hint Resolve tri_seq_all : tri.
Lemma tri_tuple {A} P (l : list (M A)) : Forall (tri P) l -> forall i h, tri P (tuple_elems l i h).
Proof. intros H. induction H as [|m l H HL IH]; intros i h; cbn [tuple_elems]; tr. Qed.
Lemma tri_next_key {A} P t (m : M A) h : tri P m -> tri P (next_key t m h).
Proof. intros H. unfold next_key. tr. Qed.
Lemma tri_next_value {A} P (m : M A) : tri P m -> tri P (next_value m).
Proof. intros H. unfold next_value. tr. Qed.
#[local] Hint Resolve tri_next_key tri_next_value : tri.
Lemma tri_map_loop {A B} P t (k : M A) (v : M B) n : tri P k -> tri P v -> forall h, tri P (map_loop n t k v h).
Proof. intros H V. induction n as [|n IH]; intros h; cbn [map_loop]; tr. Qed.
#[local] Hint Resolve tri_map_loop : tri.
Lemma tri_map_all {A B} P t (k : M A) (v : M B) : tri P k -> tri P v -> tri P (map_all t k v).
Proof. intros H V. unfold map_all. tr. Qed.
#[local] Hint Resolve tri_map_all : tri.
Lemma tri_identifier P : tri P de_identifier.
Proof. unfold de_identifier. tr. Qed.
#[local] Hint Resolve tri_identifier : tri.
Lemma tri_seq {A} P (m : M A) : tri P m -> tri P (de_seq m).
Proof. intros H. unfold de_seq. tr. Qed.
Lemma tri_de_tuple {A} P (m : M A) : tri P m -> tri P (de_tuple m).
Proof. intros H. unfold de_tuple. tr. Qed.
Lemma tri_map {A} P (m : M A) : tri P m -> tri P (de_map m).
Proof. intros H. unfold de_map. tr. Qed.
Lemma relabel_field l x : field_error (struct_error_name l x) -> field_error x.
Proof. destruct x; cbn; auto; constructor. Qed.
(** the body of a struct, whose errors get its name if it has one *)
Lemma tri_struct {A} (P Q : err -> Prop) n (m : M A) :
  (forall x, Q x -> P (struct_error_name (if is_nil n then None else Some n) x)) ->
  tri Q m -> tri P (struct_after_name n m).
Proof.
  intros F H. unfold struct_after_name. apply tri_get. intros s X N. rewrite N. cbn [negb andb].
  tr. apply tri_map_err with (Q := Q); [|exact H]. intros x G. split; [eapply relabel_field; eauto|].
  intros q. specialize (F x q). destruct n; exact F.
Qed.
Lemma tri_option {A} P (a : A) m : tri P m -> tri P (de_option a m).
Proof. intros H. unfold de_option. tr. Qed.
Lemma tri_unit P : tri P de_unit.
Proof. unfold de_unit. tr. Qed.
#[local] Hint Resolve tri_seq tri_de_tuple tri_map tri_option tri_unit : tri.
Lemma tri_unit_struct P n : tri P (de_unit_struct n).
Proof. unfold de_unit_struct. tr. Qed.
Lemma tri_newtype {A} P n (m : M A) : tri P m -> tri P (de_newtype n m).
Proof. intros H. unfold de_newtype. tr. Qed.
Lemma quiet_float_range n : quiet (float_range_or_value n).
Proof. unfold float_range_or_value. ql. Qed.
#[local] Hint Resolve quiet_float_range : quiet.
#[local] Hint Resolve tri_unit_struct tri_newtype : tri.
Ltac tr2 :=
  match goal with
  | |- _ => tr1
  | |- tri _ (seq_all _ _) => apply tri_seq_all
  | |- tri _ (map_all _ _ _) => apply tri_map_all
  | |- tri _ (de_seq _) => apply tri_seq
  | |- tri _ (de_tuple _) => apply tri_de_tuple
  | |- tri _ (de_map _) => apply tri_map
  | |- tri _ (de_option _ _) => apply tri_option
  | |- tri _ (de_newtype _ _) => apply tri_newtype
  end.
Ltac tj := cbv zeta; repeat tr2.
Lemma tri_bytes P : tri P de_bytes.
Proof. unfold de_bytes. tj. Qed.
#[local] Hint Resolve tri_bytes : tri.
Lemma tri_any_number_or_bytes P : tri P any_number_or_bytes.
Proof. unfold any_number_or_bytes. tj. Qed.
#[local] Hint Resolve tri_any_number_or_bytes : tri.
(** values of any type have no struct to miss a field of *)
Definition never (x : err) : Prop := False.
Lemma tri_struct_never {A} (m : M A) : tri never m -> tri never (struct_after_name [] m).
Proof. intros H. apply tri_struct with (Q := never); [intros x []|exact H]. Qed.
#[local] Hint Resolve tri_struct_never : tri.
Ltac tr3 :=
  match goal with
  | |- _ => tr2
  | |- tri never (struct_after_name _ _) => apply tri_struct_never
  end.
Ltac tk := cbv zeta; repeat tr3.
Lemma tri_any_main m : tri never m -> tri never (any_main m).
Proof. intros H. unfold any_main. tk. Qed.
#[local] Hint Resolve tri_any_main : tri.
Lemma tri_any f : tri never (de_any f).
Proof. induction f as [|f IH]; cbn [de_any]; tk. Qed.
#[local] Hint Resolve tri_any : tri.
Lemma tri_any_value P : tri P any_value.
Proof. apply tri_imp with (Q := never); [intros x []|]. unfold any_value. tk. Qed.
#[local] Hint Resolve tri_any_value : tri.
Lemma tri_raw P : tri P de_raw.
Proof. unfold de_raw. tk. Qed.
Lemma quiet_range n l : quiet (range_prologue n l).
Proof. unfold range_prologue. ql. Qed.
#[local] Hint Resolve tri_raw : tri.
#[local] Hint Resolve quiet_range : quiet.

(** ** Structs *)
Section Typed.
Variable tenv : nat -> ty.
Notation within := (within tenv).
Notation blames := (blames tenv).
Notation part := (part tenv).

(** the errors of a struct's body, before it is named *)
Definition inside (deny : bool) (fields : list (str * ty)) (x : err) : Prop :=
  mistake tenv deny fields None x \/ exists k T, In (k, T) fields /\ blames T x.
Lemma assoc_some {A} k (l : list (str * A)) a : assoc k l = Some a -> In (k, a) l.
Proof.
  induction l as [|[k' a'] l IH]; cbn; [discriminate|]. destruct (str_eqb k k') eqn:Q; [|auto].
  intros [= ->]. apply str_eqb_eq in Q. subst. auto.
Qed.
Lemma assoc_nowhere {A} k (l : list (str * A)) : assoc k l = None -> ~ In k (map fst l).
Proof.
  induction l as [|[k' a'] l IH]; cbn; [auto|]. destruct (str_eqb k k') eqn:Q; [discriminate|].
  intros H [->|IN]; [|now apply IH]. now rewrite (proj2 (str_eqb_eq k k) eq_refl) in Q.
Qed.
Lemma tri_field_key deny fields : tri (inside deny fields) (field_key deny fields).
Proof.
  unfold field_key. apply tri_bind; [apply tri_identifier|]. intros k. destruct (assoc k fields) eqn:Q; [tk|].
  destruct deny eqn:D; [|tk]. apply tri_fail. intros _. left. constructor; [reflexivity|now apply assoc_nowhere].
Qed.
Lemma tri_struct_loop rec deny fields n : (forall k T, In (k, T) fields -> tri (blames T) (rec T)) ->
  forall acc h, tri (inside deny fields) (struct_loop rec deny fields n acc h).
Proof.
  intros H. induction n as [|n IH]; intros acc h; cbn [struct_loop]; [tk|].
  apply tri_bind; [apply tri_next_key, tri_field_key|]. intros [k|]; [|tk].
  destruct (assoc k fields) as [T|] eqn:Q; [|tk]. apply assoc_some in Q.
  destruct (assoc k acc) as [v|] eqn:D.
  - apply tri_fail. intros _. left. apply mk_duplicate. apply (in_map fst) in Q. exact Q.
  - apply tri_bind; [|intros; apply IH]. apply tri_next_value, tri_imp with (Q := blames T); [|eauto].
    intros x B. right. eauto.
Qed.
Lemma tri_collect deny fields l acc : (forall p, In p l -> In p fields) ->
  tri (inside deny fields) (collect (is_option tenv) l acc).
Proof.
  induction l as [|[k T] l IH]; intros H; cbn [collect]; [tk|].
  apply tri_bind; [|intros v; apply tri_bind; [apply IH; intros; apply H; now right|intros; tk]].
  destruct (assoc k acc); [tk|]. destruct (is_option tenv T) eqn:O; [tk|].
  apply tri_fail. intros _. left. apply mk_missing with (T := T); [apply H; now left|exact O].
Qed.
Lemma tri_struct_body rec deny fields : (forall k T, In (k, T) fields -> tri (blames T) (rec T)) ->
  tri (inside deny fields) (struct_body rec deny fields (is_option tenv)).
Proof.
  intros H. unfold struct_body. tk.
  - now apply tri_struct_loop.
  - now apply tri_collect.
Qed.
Lemma name_mistake deny fields l x : mistake tenv deny fields None x -> mistake tenv deny fields l (struct_error_name l x).
Proof. destruct 1; cbn; econstructor; eauto. Qed.
Lemma name_blamed T l x : blames T x -> struct_error_name l x = x.
Proof. intros (U & label & deny & fields & _ & _ & []); reflexivity. Qed.
Lemma within_part U V T : within U V -> part V T -> within U T.
Proof. intros H P. now apply wi_part with V. Qed.
Lemma blames_part U T x : part U T -> blames U x -> blames T x.
Proof. intros P (V & label & deny & fields & W & D). exists V, label, deny, fields. split; [now apply wi_part with U|exact D]. Qed.
Lemma tri_part {A} U T (m : M A) : part U T -> tri (blames U) m -> tri (blames T) m.
Proof. intros P. apply tri_imp. intros x. now apply blames_part. Qed.

(** every struct in [T] has a name *)
Definition named (T : ty) : Prop := forall deny fields, ~ within (TStruct deny [] fields) T.
Lemma named_part U T : part U T -> named T -> named U.
Proof. intros P H deny fields W. apply (H deny fields). now apply wi_part with U. Qed.

(** the name of the variant is the last identifier *)
Definition lasts {A} (Q : A -> option str -> Prop) (m : M A) : Prop :=
  forall s, match m s with Ok a s' => Q a (last_id s') | _ => True end.
Lemma lasts_guard {A} Q r (m : M A) : lasts Q m -> lasts Q (guard_with r m).
Proof.
  intros H s. unfold guard_with. destruct (lim s) as [[|l]|]; auto.
  - specialize (H (set_lim (Some l) s)). destruct (m (set_lim (Some l) s)); auto.
  - apply H.
Qed.
Lemma lasts_variant (variants : list (str * vty)) :
  lasts (fun kw l => l = Some (fst kw) /\ In kw variants) (guard (k <- de_identifier ;;
    match assoc k variants with Some w => ret (k, w) | None => fail (ENoSuchEnumVariant k None) end)).
Proof.
  apply lasts_guard. intros s. unfold de_identifier, bind. destruct (identifier s) as [k s'|x s'| |]; auto.
  cbn. destruct (assoc k variants) eqn:Q; cbn; auto using assoc_some.
Qed.
Lemma tri_bind_last {A B} P Q (m : M A) (k : A -> M B) : tri P m -> lasts Q m ->
  (forall a s, ext s = e -> nt s = false -> Q a (last_id s) ->
     match k a s with Ok _ s' => ext s' = e /\ nt s' = false | Err x _ => field_error x -> P x | _ => True end) ->
  tri P (bind m k).
Proof.
  intros H L K s X N. specialize (H s X N). specialize (L s). unfold bind. destruct (m s) as [a s'|x s'| |]; auto.
  now apply K.
Qed.
Lemma tri_elems (rec : ty -> M val) P Ts i h : (forall U, In U Ts -> tri P (rec U)) -> tri P (tuple_elems (map rec Ts) i h).
Proof.
  intros H. apply tri_tuple. induction Ts as [|U Ts IH]; cbn; constructor; [apply H; now left|].
  apply IH. intros V IN. apply H. now right.
Qed.
Lemma tri_weak {A} P (m : M A) s : tri P m -> ext s = e -> nt s = false ->
  match m s with Ok _ s' => ext s' = e /\ nt s' = false | Err x _ => field_error x -> P x | _ => True end.
Proof. intros H. apply H. Qed.
Lemma tri_step rec T : named T -> (forall U, part U T -> tri (blames U) (rec U)) -> tri (blames T) (de_step tenv rec T).
Proof.
  intros NM H.
  assert (HP : forall U, part U T -> tri (blames T) (rec U)) by (intros U PU; now apply tri_part with U; auto).
  destruct T as [|k|k| | | | |name|T|name T|T|Ts|name Ts|K T|deny name fields|name variants| | | |n]; cbn [de_step].
  all: try solve [tk].
  - apply tri_option. apply tri_bind; [apply HP; constructor|intros; tk].
  - apply tri_newtype. apply tri_bind; [apply HP; constructor|intros; tk].
  - apply tri_seq. apply tri_bind; [apply tri_seq_all, HP; constructor|intros; tk].
  - apply tri_de_tuple. apply tri_bind; [|intros; tk]. apply tri_elems. intros U IN. apply HP. now constructor.
  - tk. apply tri_map_err with (Q := blames (TTupleStruct name Ts)).
    + intros x F. destruct x; auto. destruct (is_nil name); inversion F.
    + apply tri_de_tuple. apply tri_bind; [|intros; tk]. apply tri_elems. intros U IN. apply HP. now constructor.
  - apply tri_map. apply tri_bind; [|intros; tk]. apply tri_map_all; apply HP; constructor.
  - apply tri_bind; [apply tri_quiet, quiet_range|]. intros [ns|]; [tk|]. tk.
    destruct name as [|c name]; [exfalso; now apply (NM deny fields), wi_same|]. set (name' := c :: name) in *.
    apply tri_struct with (Q := inside deny fields).
    + cbn [is_nil name']. intros x [MX|(k & T & IN & B)].
      * exists (TStruct deny name' fields), name', deny, fields. split; [apply wi_same|]. split; [constructor|now apply name_mistake].
      * erewrite name_blamed by eauto. apply blames_part with T; [now apply p_field with k|exact B].
    + apply tri_bind; [|intros; tk]. apply tri_struct_body. intros k T IN. apply H. now apply p_field with k.
  - tk. apply tri_map_err with (Q := blames (TEnum name variants)).
    { intros x F. destruct x; auto; cbn in F |- *; [|auto..]. destruct outer; [inversion F|destruct (is_nil name); inversion F]. }
    apply tri_guard, tri_bind; [tk|]. intros _.
    eapply tri_bind_last; [|apply lasts_variant|]; [tk|].
    intros [k w] s2 X2 N2 (L2 & IN). cbn [fst] in L2. destruct w as [|T|Ts|deny fields].
    + apply tri_weak; auto. tk.
    + unfold bind at 1, get. rewrite L2. apply tri_weak; auto. tk.
      apply tri_map_err with (Q := blames T); [|apply H; now apply p_new_variant with k].
      intros x F. split; [eapply relabel_field; eauto|]. intros B. erewrite name_blamed by eauto.
      apply blames_part with T; [now apply p_new_variant with k|exact B].
    + apply tri_weak; auto. tk. apply tri_elems. intros U IU. apply HP. now apply p_tuple_variant with k Ts.
    + unfold bind at 1, get. rewrite L2. apply tri_weak; auto. apply tri_bind; [tk|]. intros _.
      apply tri_map_err with (Q := inside deny fields).
      * intros x F. split; [eapply relabel_field; eauto|]. intros [MX|(f & T & IF & B)].
        -- exists (TEnum name variants), k, deny, fields. split; [apply wi_same|]. split; [now constructor|now apply name_mistake].
        -- erewrite name_blamed by eauto. apply blames_part with T; [now apply p_struct_variant with k deny f fields|exact B].
      * apply tri_struct with (Q := inside deny fields).
        -- cbn [is_nil]. intros x B. destruct x; try exact B; destruct outer; exact B.
        -- apply tri_bind; [|intros; tk]. apply tri_struct_body. intros f T IF. apply H.
           now apply p_struct_variant with k deny f fields.
  - apply HP. constructor.
Qed.
Theorem tri_ty f : forall T, named T -> tri (blames T) (de_ty tenv f T).
Proof.
  induction f as [|f IH]; intros T NM; cbn [de_ty]; [tk|]. apply tri_step; [exact NM|].
  intros U PU. apply IH. now apply named_part with T.
Qed.
End Typed.
End Mode.

(** ** Variants *)
(** errors about variants satisfy [P] *)
Definition vtri {A} (P : str -> option str -> Prop) (m : M A) : Prop := forall s,
  match m s with Err (ENoSuchEnumVariant v l) _ => P v l | _ => True end.
Lemma vtri_quiet {A} P (m : M A) : quiet m -> vtri P m.
Proof.
  intros H s. specialize (H s). destruct (m s) as [a s'|x s'| |]; auto. destruct x; auto. exfalso. apply H. constructor.
Qed.
Lemma vtri_bind {A B} P (m : M A) (k : A -> M B) : vtri P m -> (forall a, vtri P (k a)) -> vtri P (bind m k).
Proof. intros H K s. specialize (H s). unfold bind. destruct (m s) as [a s'|x s'| |]; auto. apply K. Qed.
Lemma vtri_get {B} P (k : st -> M B) : (forall s, vtri P (k s)) -> vtri P (bind get k).
Proof. intros K s. apply K. Qed.
Lemma vtri_map_err {A} (P Q : str -> option str -> Prop) f (m : M A) :
  (forall x v l, f x = ENoSuchEnumVariant v l -> exists v' l', x = ENoSuchEnumVariant v' l' /\ (Q v' l' -> P v l)) -> vtri Q m -> vtri P (map_err f m).
Proof.
  intros F H s. specialize (H s). unfold map_err, try. destruct (m s) as [a s'|x s'| |]; auto. cbn.
  specialize (F x). destruct (f x); auto. destruct (F _ _ eq_refl) as (v' & l' & -> & PQ). auto.
Qed.
Lemma vtri_imp {A} (P Q : str -> option str -> Prop) (m : M A) : (forall v l, Q v l -> P v l) -> vtri Q m -> vtri P m.
Proof. intros F H s. specialize (H s). destruct (m s) as [| x | |]; auto. destruct x; auto. Qed.
Lemma vtri_guard {A} P r (m : M A) : vtri P m -> vtri P (guard_with r m).
Proof.
  intros H s. unfold guard_with. destruct (lim s) as [[|l]|]; [exact Logic.I|specialize (H (set_lim (Some l) s))|apply H].
  destruct (m _) as [a s'|x s'| |]; auto.
Qed.
Lemma vtri_struct_name {A} P l (m : M A) : vtri P m -> vtri P (map_err (struct_error_name l) m).
Proof. apply vtri_map_err. intros x v l' Q. destruct x; cbn in Q; try destruct outer; try discriminate Q; injection Q as <- <-; eauto. Qed.
Lemma vtri_fail {A} (P : str -> option str -> Prop) x : match x with ENoSuchEnumVariant v l => P v l | _ => True end -> vtri P (@fail A x).
Proof. intros H s. exact H. Qed.
Lemma vtri_modify P f : vtri P (modify f).
Proof. intros s. exact Logic.I. Qed.
#[local] Hint Resolve quiet_float_range quiet_range : quiet.
Create HintDb vtri.
Ltac vt1 :=
  match goal with
  | |- vtri _ (bind get _) => apply vtri_get; intros ?
  | |- vtri _ (bind _ _) => apply vtri_bind; [|intros ?]
  | |- vtri _ (guard _) => apply vtri_guard
  | |- vtri _ (guard_r _) => apply vtri_guard
  | |- vtri _ (modify _) => apply vtri_modify
  | |- vtri _ (fail _) => apply vtri_fail; exact Logic.I
  | |- vtri _ (map_err (struct_error_name _) _) => apply vtri_struct_name
  | |- _ => solve [auto with vtri]
  | |- vtri _ _ => apply vtri_quiet; solve [auto with quiet]
  | |- vtri _ (match ?x with _ => _ end) => destruct x
  end.
Ltac vt := cbv zeta; repeat vt1.
Lemma vtri_has_element P t h : vtri P (has_element t h).
Proof. unfold has_element. vt. Qed.
#[local] Hint Resolve vtri_has_element : vtri.
Lemma vtri_next_element {A} P t (m : M A) h : vtri P m -> vtri P (next_element t m h).
Proof. intros H. unfold next_element. vt. Qed.
#[local] Hint Resolve vtri_next_element : vtri.
Lemma vtri_seq_loop {A} P t (m : M A) n : vtri P m -> forall h, vtri P (seq_loop n t m h).
Proof. intros H. induction n as [|n IH]; intros h; cbn [seq_loop]; vt. Qed.
#[local] Hint Resolve vtri_seq_loop : vtri.
Lemma vtri_seq_all {A} P t (m : M A) : vtri P m -> vtri P (seq_all t m).
Proof. intros H. unfold seq_all. vt. Qed.
Lemma vtri_tuple {A} P (l : list (M A)) : Forall (vtri P) l -> forall i h, vtri P (tuple_elems l i h).
Proof. intros H. induction H as [|m l H HL IH]; intros i h; cbn [tuple_elems]; vt. Qed.
Lemma vtri_next_key {A} P t (m : M A) h : vtri P m -> vtri P (next_key t m h).
Proof. intros H. unfold next_key. vt. Qed.
Lemma vtri_next_value {A} P (m : M A) : vtri P m -> vtri P (next_value m).
Proof. intros H. unfold next_value. vt. Qed.
#[local] Hint Resolve vtri_seq_all vtri_next_key vtri_next_value : vtri.
Lemma vtri_map_loop {A B} P t (k : M A) (v : M B) n : vtri P k -> vtri P v -> forall h, vtri P (map_loop n t k v h).
Proof. intros H V. induction n as [|n IH]; intros h; cbn [map_loop]; vt. Qed.
#[local] Hint Resolve vtri_map_loop : vtri.
Lemma vtri_map_all {A B} P t (k : M A) (v : M B) : vtri P k -> vtri P v -> vtri P (map_all t k v).
Proof. intros H V. unfold map_all. vt. Qed.
Lemma vtri_identifier P : vtri P de_identifier.
Proof. unfold de_identifier. vt. Qed.
#[local] Hint Resolve vtri_map_all vtri_identifier : vtri.
Lemma vtri_seq {A} P (m : M A) : vtri P m -> vtri P (de_seq m).
Proof. intros H. unfold de_seq. vt. Qed.
Lemma vtri_de_tuple {A} P (m : M A) : vtri P m -> vtri P (de_tuple m).
Proof. intros H. unfold de_tuple. vt. Qed.
Lemma vtri_map {A} P (m : M A) : vtri P m -> vtri P (de_map m).
Proof. intros H. unfold de_map. vt. Qed.
Lemma vtri_struct {A} P n (m : M A) : vtri P m -> vtri P (struct_after_name n m).
Proof. intros H. unfold struct_after_name. vt. Qed.
Lemma vtri_option {A} P (a : A) m : vtri P m -> vtri P (de_option a m).
Proof. intros H. unfold de_option. vt. Qed.
Lemma vtri_unit P : vtri P de_unit.
Proof. unfold de_unit. vt. Qed.
#[local] Hint Resolve vtri_seq vtri_de_tuple vtri_map vtri_struct vtri_option vtri_unit : vtri.
Lemma vtri_unit_struct P n : vtri P (de_unit_struct n).
Proof. unfold de_unit_struct. vt. Qed.
Lemma vtri_newtype {A} P n (m : M A) : vtri P m -> vtri P (de_newtype n m).
Proof. intros H. unfold de_newtype. vt. Qed.
Ltac vt2 :=
  match goal with
  | |- _ => vt1
  | |- vtri _ (seq_all _ _) => apply vtri_seq_all
  | |- vtri _ (map_all _ _ _) => apply vtri_map_all
  | |- vtri _ (de_seq _) => apply vtri_seq
  | |- vtri _ (de_tuple _) => apply vtri_de_tuple
  | |- vtri _ (de_map _) => apply vtri_map
  | |- vtri _ (de_option _ _) => apply vtri_option
  | |- vtri _ (de_newtype _ _) => apply vtri_newtype
  | |- vtri _ (struct_after_name _ _) => apply vtri_struct
  end.
Ltac vj := cbv zeta; repeat vt2.
Lemma vtri_bytes P : vtri P de_bytes.
Proof. unfold de_bytes. vj. Qed.
#[local] Hint Resolve vtri_unit_struct vtri_newtype vtri_bytes : vtri.
Lemma vtri_any_number_or_bytes P : vtri P any_number_or_bytes.
Proof. unfold any_number_or_bytes. vt. Qed.
#[local] Hint Resolve vtri_any_number_or_bytes : vtri.
Lemma vtri_any_main P m : vtri P m -> vtri P (any_main m).
Proof. intros H. unfold any_main. vj. Qed.
#[local] Hint Resolve vtri_any_main : vtri.
Lemma vtri_any P f : vtri P (de_any f).
Proof. induction f as [|f IH]; cbn [de_any]; vj. Qed.
#[local] Hint Resolve vtri_any : vtri.
Lemma vtri_any_value P : vtri P any_value.
Proof. unfold any_value. vj. Qed.
#[local] Hint Resolve vtri_any_value : vtri.
Lemma vtri_raw P : vtri P de_raw.
Proof. unfold de_raw. vj. Qed.
#[local] Hint Resolve vtri_raw : vtri.
Section Typed.
Variable tenv : nat -> ty.
Definition blames_enum (T : ty) (v : str) (l : option str) : Prop :=
  exists name variants, within tenv (TEnum name variants) T /\ ~ In v (map fst variants) /\ l = Some name.
Lemma blames_enum_part U T v l : part tenv U T -> blames_enum U v l -> blames_enum T v l.
Proof. intros P (n & vs & W & D). exists n, vs. split; [now apply wi_part with U|exact D]. Qed.
Lemma vtri_elems (rec : ty -> M val) P Ts i h : (forall U, In U Ts -> vtri P (rec U)) -> vtri P (tuple_elems (map rec Ts) i h).
Proof.
  intros H. apply vtri_tuple. induction Ts as [|U Ts IH]; cbn; constructor; [apply H; now left|].
  apply IH. intros V IN. apply H. now right.
Qed.
Lemma vtri_field_key P deny fields : vtri P (field_key deny fields).
Proof. unfold field_key. vj. Qed.
#[local] Hint Resolve vtri_field_key : vtri.
Lemma vtri_struct_loop P rec deny fields n : (forall k T, In (k, T) fields -> vtri P (rec T)) ->
  forall acc h, vtri P (struct_loop rec deny fields n acc h).
Proof.
  intros H. induction n as [|n IH]; intros acc h; cbn [struct_loop]; [vj|].
  apply vtri_bind; [apply vtri_next_key, vtri_field_key|]. intros [k|]; [|vj].
  destruct (assoc k fields) as [T|] eqn:Q; [|vj; unfold any_value; vj]. apply assoc_some in Q. vj. apply vtri_next_value. eapply H, Q.
Qed.
Lemma vtri_collect P fields acc : vtri P (collect (is_option tenv) fields acc).
Proof. induction fields as [|[k T] l IH]; cbn [collect]; vj. Qed.
#[local] Hint Resolve vtri_collect : vtri.
Lemma vtri_struct_body P rec deny fields : (forall k T, In (k, T) fields -> vtri P (rec T)) ->
  vtri P (struct_body rec deny fields (is_option tenv)).
Proof. intros H. unfold struct_body. vj. now apply vtri_struct_loop. Qed.
Lemma vtri_bind_last {A B} P Q (m : M A) (k : A -> M B) : vtri P m -> lasts Q m ->
  (forall a l, Q a l -> vtri P (k a)) -> vtri P (bind m k).
Proof.
  intros H L K s. specialize (H s). specialize (L s). unfold bind. destruct (m s) as [a s'|x s'| |]; auto. eapply K, L.
Qed.
(** every enum in [T] has a name *)
Definition named_enums (T : ty) : Prop := forall variants, ~ within tenv (TEnum [] variants) T.
Lemma vtri_step rec T : named_enums T -> (forall U, part tenv U T -> vtri (blames_enum U) (rec U)) -> vtri (blames_enum T) (de_step tenv rec T).
Proof.
  intros NM H.
  assert (HP : forall U, part tenv U T -> vtri (blames_enum T) (rec U)) by (intros U PU; apply vtri_imp with (Q := blames_enum U); auto; intros v l; now apply blames_enum_part).
  destruct T as [|k|k| | | | |name|T|name T|T|Ts|name Ts|K T|deny name fields|name variants| | | |n]; cbn [de_step].
  all: try solve [vj].
  - vj. apply HP. constructor.
  - vj. apply HP. constructor.
  - vj. apply HP. constructor.
  - vj. apply vtri_elems. intros U IN. apply HP. now constructor.
  - vj. apply vtri_map_err with (Q := blames_enum (TTupleStruct name Ts)).
    + intros x v l F. destruct x; try discriminate F; [destruct (is_nil name); discriminate F|]. injection F as <- <-. eauto.
    + vj. apply vtri_elems. intros U IN. apply HP. now constructor.
  - vj; apply HP; constructor.
  - vj. apply vtri_struct_body. intros k T IN. apply HP. now apply p_field with k.
  - vj. apply vtri_map_err with (Q := fun v l => blames_enum (TEnum name variants) v l \/ (l = None /\ ~ In v (map fst variants))).
    { intros x v l F. destruct name as [|c0 n0]; [exfalso; now apply (NM variants), wi_same|].
      destruct x; try discriminate F; cbn in F; try destruct outer as [q|]; try discriminate F; injection F as <- <-; eexists _, _; (split; [reflexivity|]).
      - intros [B|[B _]]; [exact B|discriminate B].
      - intros [(n' & vs & _ & _ & B)|[_ B]]; [discriminate B|]. eexists _, variants. split; [apply wi_same|]. auto. }
    apply vtri_guard, vtri_bind; [vj|]. intros _. eapply vtri_bind_last; [|apply lasts_variant|].
    { apply vtri_guard, vtri_bind; [vj|]. intros k. destruct (assoc k variants) eqn:AS; [vj|]. apply vtri_fail. right. split; [reflexivity|]. now apply assoc_nowhere. }
    intros [k w] l (_ & IN). apply vtri_imp with (Q := blames_enum (TEnum name variants)); [auto|].
    destruct w as [|T|Ts|deny fields]; vj.
    + apply HP. now apply p_new_variant with k.
    + apply vtri_elems. intros U IU. apply HP. now apply p_tuple_variant with k Ts.
    + apply vtri_struct_body. intros f T IF. apply HP. now apply p_struct_variant with k deny f fields.
  - apply HP. constructor.
Qed.
Theorem vtri_ty f : forall T, named_enums T -> vtri (blames_enum T) (de_ty tenv f T).
Proof.
  induction f as [|f IH]; intros T NM; cbn [de_ty]; [vj|]. apply vtri_step; [exact NM|]. intros U PU. apply IH.
  intros vs W. apply (NM vs). now apply wi_part with U.
Qed.
End Typed.
Lemma vtri_extension_loop P f : forall acc, vtri P (extension_loop f acc).
Proof. induction f as [|f IH]; intros acc; cbn [extension_loop]; vj. Qed.
#[local] Hint Resolve vtri_extension_loop : vtri.
Lemma vtri_attr_loop P f : vtri P (attr_loop f).
Proof. induction f as [|f IH]; cbn [attr_loop]; unfold attribute, extension_list; vj. Qed.
#[local] Hint Resolve vtri_attr_loop : vtri.
Lemma vtri_document {A} P o (m : M A) : vtri P m -> vtri P (document o m).
Proof. intros H. unfold document, parser_new, de_end. vj. Qed.
End WithEnv.
