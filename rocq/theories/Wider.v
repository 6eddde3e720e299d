(** Extensions that only make more texts acceptable: implicit_some switched on,
    explicit_struct_names switched off. *)
From Coq Require Import String Ascii NArith ZArith Lia Bool List.
From Verif Require Import Base Facts Value Data Parse De Span Limit Content Tagged Adjacent Flatten.
Import ListNotations.
Open Scope N_scope.
Open Scope list_scope.
Open Scope m_scope.

(** [e'] accepts more than [e] *)
Definition wider (e e' : exts) : Prop :=
  x_unwrap_newtypes e' = x_unwrap_newtypes e /\ x_unwrap_variant_newtypes e' = x_unwrap_variant_newtypes e /\
  (x_implicit_some e = true -> x_implicit_some e' = true) /\ (x_explicit_struct_names e' = true -> x_explicit_struct_names e = true).

(** ** The lexer does not look at the extensions *)
Definition deaf {A} (m : M A) : Prop := forall l s, m (set_ext l s) = on_st (set_ext l) (m s).

Lemma deaf_bind {A B} (m : M A) (k : A -> M B) : deaf m -> (forall a, deaf (k a)) -> deaf (bind m k).
Proof.
  intros H K l s. unfold bind. rewrite H. destruct (m s); cbn [on_st]; auto. apply K.
Qed.
Lemma deaf_get {B} (k : st -> M B) : (forall l s, k (set_ext l s) = k s) -> (forall s, deaf (k s)) -> deaf (bind get k).
Proof. intros Q K l s. unfold bind, get. rewrite Q. apply K. Qed.
Lemma deaf_try {A B} (m : M A) (f : A -> M B) g : deaf m -> (forall a, deaf (f a)) -> (forall e, deaf (g e)) -> deaf (try m f g).
Proof. intros H F G l s. unfold try. rewrite H. destruct (m s); cbn [on_st]; auto; [apply F|apply G]. Qed.
Lemma deaf_map_err {A} f (m : M A) : deaf m -> deaf (map_err f m).
Proof. intros H. unfold map_err. apply deaf_try; [assumption|intros a l s; reflexivity|intros e l s; reflexivity]. Qed.
Lemma deaf_ret {A} (a : A) : deaf (ret a).
Proof. intros l s. reflexivity. Qed.
Lemma deaf_fail {A} e : deaf (@fail A e).
Proof. intros l s. reflexivity. Qed.
Lemma deaf_oof {A} : deaf (@oof A).
Proof. intros l s. reflexivity. Qed.
Lemma deaf_panic {A} : deaf (@panic A).
Proof. intros l s. reflexivity. Qed.
Lemma deaf_src : deaf src.
Proof. intros l s. reflexivity. Qed.
Lemma deaf_pre_ws : deaf pre_ws_src.
Proof. intros l s. reflexivity. Qed.
Lemma deaf_of_slice {A} (o : option A) : deaf (of_slice o).
Proof. destruct o; [apply deaf_ret|apply deaf_panic]. Qed.
Lemma deaf_modify f : (forall l s, f (set_ext l s) = set_ext l (f s)) -> deaf (modify f).
Proof. intros H l s. unfold modify. now rewrite H. Qed.
Lemma deaf_cursor : deaf get_cursor_m.
Proof. intros l s. reflexivity. Qed.
Lemma deaf_set_cursor c : deaf (set_cursor_m c).
Proof. apply deaf_modify. intros l s. destruct c as [[r p] w]. reflexivity. Qed.
Lemma deaf_advance n : deaf (advance_bytes n).
Proof. intros l s. unfold advance_bytes. cbn [rest set_ext]. destruct (bdrop n (rest s)); reflexivity. Qed.
Lemma deaf_next_char : deaf next_char.
Proof. intros l s. unfold next_char. cbn [rest set_ext]. destruct (rest s); reflexivity. Qed.
Lemma deaf_peek : deaf peek_char.
Proof. intros l s. reflexivity. Qed.
Lemma deaf_peek_eof : deaf peek_char_or_eof.
Proof. intros l s. unfold peek_char_or_eof. cbn [rest set_ext]. destruct (rest s); reflexivity. Qed.
Lemma deaf_check_char c : deaf (check_char c).
Proof. intros l s. reflexivity. Qed.
Lemma deaf_check_str c : deaf (check_str c).
Proof. intros l s. reflexivity. Qed.
Lemma deaf_track : deaf (modify track_ws).
Proof.
  apply deaf_modify. intros l s. unfold track_ws. cbn [last_ws rest pre_ws set_ext]. destruct (last_ws s); [|reflexivity].
  destruct (Nat.ltb _ _); reflexivity.
Qed.
Lemma deaf_update : deaf update_last_ws.
Proof. intros l s. unfold update_last_ws. cbn [rest pre_ws set_ext]. destruct (Nat.leb _ _); reflexivity. Qed.
Lemma deaf_unclosed : deaf has_unclosed_line_comment.
Proof. intros l s. reflexivity. Qed.
Create HintDb deaf.
#[local] Hint Resolve deaf_ret deaf_fail deaf_oof deaf_panic deaf_src deaf_pre_ws deaf_of_slice deaf_cursor deaf_set_cursor
  deaf_advance deaf_next_char deaf_peek deaf_peek_eof deaf_check_char deaf_check_str deaf_track deaf_update deaf_unclosed : deaf.

Ltac bl1 :=
  match goal with
  | |- deaf (bind get _) => apply deaf_get; [intros; reflexivity|intros ?]
  | |- deaf (bind _ _) => apply deaf_bind; [|intros ?]
  | |- deaf (try _ _ _) => apply deaf_try; [|intros ?|intros ?]
  | |- deaf (map_err _ _) => apply deaf_map_err
  | |- deaf (modify (set_last_ws _)) => apply deaf_modify; intros; reflexivity
  | |- deaf (modify (set_nt _)) => apply deaf_modify; intros; reflexivity
  | |- deaf (modify (set_last_id _)) => apply deaf_modify; intros; reflexivity
  | |- deaf (modify (fun s => set_nt _ s)) => apply deaf_modify; intros; reflexivity
  | |- _ => solve [auto with deaf]
  | |- deaf (match ?x with _ => _ end) => destruct x
  | |- deaf (let _ := _ in _) => cbv zeta
  end.
Ltac bl := cbv zeta; repeat bl1.

Section WithEnv.
Context {E : Env}.
Lemma deaf_skip_next : deaf skip_next_char.
Proof. unfold skip_next_char. bl. Qed.
Lemma deaf_consume_str p : deaf (consume_str p).
Proof. unfold consume_str. bl. Qed.
Lemma deaf_consume_char p : deaf (consume_char p).
Proof. unfold consume_char. bl. Qed.
#[local] Hint Resolve deaf_skip_next deaf_consume_str deaf_consume_char : deaf.
Lemma deaf_expect c e : deaf (expect_char c e).
Proof. unfold expect_char. bl. Qed.
Lemma deaf_while_from n p : deaf (next_chars_while_from_len n p).
Proof. unfold next_chars_while_from_len. bl. Qed.
#[local] Hint Resolve deaf_expect deaf_while_from : deaf.
Lemma deaf_while p : deaf (next_chars_while_len p).
Proof. unfold next_chars_while_len. bl. Qed.
Lemma deaf_ident_other n : deaf (check_ident_other_char n).
Proof. unfold check_ident_other_char. bl. Qed.
#[local] Hint Resolve deaf_while deaf_ident_other : deaf.
Lemma deaf_check_ident n : deaf (check_ident n).
Proof. unfold check_ident. bl. Qed.
#[local] Hint Resolve deaf_check_ident : deaf.
Lemma deaf_consume_ident n : deaf (consume_ident n).
Proof. unfold consume_ident. bl. Qed.
#[local] Hint Resolve deaf_consume_ident : deaf.
Lemma deaf_block f : forall n, deaf (block_loop f n).
Proof. induction f as [|f IH]; intros [|n]; cbn [block_loop]; bl. Qed.
#[local] Hint Resolve deaf_block : deaf.
Lemma deaf_comment : deaf skip_comment.
Proof. unfold skip_comment. bl. Qed.
#[local] Hint Resolve deaf_comment : deaf.
Lemma deaf_ws_loop f : deaf (ws_loop f).
Proof. induction f as [|f IH]; cbn [ws_loop]; bl. Qed.
#[local] Hint Resolve deaf_ws_loop : deaf.
Lemma deaf_skip_ws : deaf skip_ws.
Proof. unfold skip_ws. bl. Qed.
#[local] Hint Resolve deaf_skip_ws : deaf.
Lemma deaf_comma : deaf comma.
Proof. unfold comma. bl. Qed.
Lemma deaf_consume_all l : deaf (consume_all l).
Proof. induction l as [|p l IH]; cbn [consume_all]; bl. Qed.
Lemma deaf_skip_identifier : deaf skip_identifier.
Proof. unfold skip_identifier. bl. Qed.
Lemma deaf_identifier : deaf identifier.
Proof. unfold identifier. bl. Qed.
#[local] Hint Resolve deaf_comma deaf_consume_all deaf_skip_identifier deaf_identifier : deaf.
Lemma deaf_decode_hex c : deaf (decode_hex c).
Proof. unfold decode_hex. bl. Qed.
#[local] Hint Resolve deaf_decode_hex : deaf.
Lemma deaf_int_digits k base neg whole i ds : forall acc, deaf (int_digits k base neg whole i ds acc).
Proof. revert i. induction ds as [|c ds IH]; intros i acc; cbn [int_digits]; bl. Qed.
#[local] Hint Resolve deaf_int_digits : deaf.
Lemma deaf_parse_integer k neg base : deaf (parse_integer k neg base).
Proof. unfold parse_integer. bl. Qed.
#[local] Hint Resolve deaf_parse_integer : deaf.
Lemma deaf_int_parse t neg base : deaf (int_parse t neg base).
Proof. unfold int_parse. bl. Qed.
Lemma deaf_try_int t p : deaf (try_from_parsed_integer t p).
Proof. unfold try_from_parsed_integer. bl. Qed.
Lemma deaf_int_suffix l : deaf (consume_int_suffix l).
Proof. induction l as [|k l IH]; cbn [consume_int_suffix]; bl. Qed.
Lemma deaf_decode_ascii : deaf decode_ascii_escape.
Proof. unfold decode_ascii_escape. bl. Qed.
#[local] Hint Resolve deaf_int_parse deaf_try_int deaf_int_suffix deaf_decode_ascii : deaf.
Lemma deaf_escape_more n : forall acc, deaf (escape_more n acc).
Proof. induction n as [|n IH]; intros acc; cbn [escape_more]; bl. Qed.
Lemma deaf_unicode_digits n : forall c acc, deaf (unicode_digits n c acc).
Proof. induction n as [|n IH]; intros c acc; cbn [unicode_digits]; bl. Qed.
#[local] Hint Resolve deaf_escape_more deaf_unicode_digits : deaf.
Lemma deaf_escape b c : deaf (parse_escape b c).
Proof. unfold parse_escape. bl. Qed.
Lemma deaf_slice_before a b : deaf (slice_before a b).
Proof. unfold slice_before. bl. Qed.
#[local] Hint Resolve deaf_escape deaf_slice_before : deaf.
Lemma deaf_byte_literal t b : deaf (byte_literal t b).
Proof. unfold byte_literal. bl. Qed.
Lemma deaf_integer_body t neg base b : deaf (integer_body t neg base b).
Proof. unfold integer_body. bl. Qed.
#[local] Hint Resolve deaf_byte_literal deaf_integer_body : deaf.
Lemma deaf_integer t : deaf (integer t).
Proof. unfold integer. bl. Qed.
Lemma deaf_float_parse t s : deaf (float_parse t s).
Proof. unfold float_parse. bl. Qed.
Lemma deaf_try_float t p : deaf (try_from_parsed_float t p).
Proof. unfold try_from_parsed_float. bl. Qed.
#[local] Hint Resolve deaf_integer deaf_float_parse deaf_try_float : deaf.
Lemma deaf_float_lits t l : deaf (float_lits t l).
Proof. induction l as [|[[w a] b] l IH]; cbn [float_lits]; bl. Qed.
#[local] Hint Resolve deaf_float_lits : deaf.
Lemma deaf_float t : deaf (float t).
Proof. unfold float. bl. Qed.
Lemma deaf_is_float : deaf next_bytes_is_float.
Proof. unfold next_bytes_is_float. bl. Qed.
#[local] Hint Resolve deaf_float deaf_is_float : deaf.
Lemma deaf_any_number : deaf any_number.
Proof. unfold any_number. bl. Qed.
Lemma deaf_bool : deaf parse_bool.
Proof. unfold parse_bool. bl. Qed.
Lemma deaf_char : deaf parse_char.
Proof. unfold parse_char. bl. Qed.
#[local] Hint Resolve deaf_any_number deaf_bool deaf_char : deaf.
Lemma deaf_escaped_loop n : forall b acc x, deaf (escaped_loop n b acc x).
Proof. induction n as [|n IH]; intros b acc x; cbn [escaped_loop]; bl. Qed.
#[local] Hint Resolve deaf_escaped_loop : deaf.
Lemma deaf_escaped_buf b : deaf (escaped_byte_buf b).
Proof. unfold escaped_byte_buf. bl. Qed.
Lemma deaf_raw_buf : deaf raw_byte_buf.
Proof. unfold raw_byte_buf. bl. Qed.
#[local] Hint Resolve deaf_escaped_buf deaf_raw_buf : deaf.
Lemma deaf_string : deaf parse_string.
Proof. unfold parse_string, escaped_string, raw_string, finish_string. bl. Qed.
#[local] Hint Resolve deaf_string : deaf.
Lemma deaf_bytes_no_base64 : deaf byte_string_no_base64.
Proof. unfold byte_string_no_base64, escaped_byte_string, raw_byte_string, finish_bytes. bl. Qed.
Lemma deaf_base64_error {A} s : deaf (@base64_error A s).
Proof. unfold base64_error. bl. Qed.
#[local] Hint Resolve deaf_bytes_no_base64 deaf_base64_error : deaf.
Lemma deaf_byte_string : deaf byte_string.
Proof. unfold byte_string, escaped_string, raw_string, finish_string. bl. Qed.
Lemma deaf_braces n : forall b, deaf (braces_loop n b).
Proof. induction n as [|n IH]; intros [|b]; cbn [braces_loop]; unfold attempt; bl. Qed.
#[local] Hint Resolve deaf_byte_string deaf_braces : deaf.
Lemma deaf_struct_type u p : deaf (check_struct_type u p).
Proof. unfold check_struct_type, check_struct_type_inner. bl. Qed.
Lemma deaf_ext_loop n : forall acc, deaf (extension_loop n acc).
Proof. induction n as [|n IH]; intros acc; cbn [extension_loop]; bl. Qed.
#[local] Hint Resolve deaf_struct_type deaf_ext_loop : deaf.
Lemma deaf_attribute : deaf attribute.
Proof. unfold attribute, extension_list. bl. Qed.
#[local] Hint Resolve deaf_attribute : deaf.



(** ** Accepting more *)
Definition sm {A} (m : M A) : Prop := forall e' s, wider (ext s) e' ->
  match m s with Ok a s' => ext s' = ext s /\ m (set_ext e' s) = Ok a (set_ext e' s') | _ => True end.
Lemma set_ext_id s : set_ext (ext s) s = s.
Proof. now destruct s. Qed.
Lemma set_ext_same e s : s = set_ext e s -> e = ext s.
Proof. intros Q. apply (f_equal ext) in Q. now rewrite Q. Qed.
Lemma deaf_sm {A} (m : M A) : deaf m -> sm m.
Proof.
  intros H e' s _. pose proof (H (ext s) s) as Q. rewrite set_ext_id in Q. rewrite H. destruct (m s) as [a s'|e s'| |]; cbn [on_st] in *; auto.
  split; [|reflexivity]. apply (f_equal (fun o => match o with Ok _ x => x | _ => s' end)) in Q. now apply set_ext_same in Q.
Qed.
Lemma sm_bind {A B} (m : M A) (k : A -> M B) : sm m -> (forall a, sm (k a)) -> sm (bind m k).
Proof.
  intros H K e' s W. specialize (H e' s W). unfold bind. destruct (m s) as [a s'|e s'| |]; auto. destruct H as [Q ->].
  rewrite <- Q in W. specialize (K a e' s' W). destruct (k a s') as [b s2|e s2| |]; auto. destruct K as [Q2 K]. split; [congruence|exact K].
Qed.
Lemma sm_get {B} (k : st -> M B) : (forall e' s, wider (ext s) e' -> k (set_ext e' s) = k s) -> (forall s, sm (k s)) -> sm (bind get k).
Proof. intros Q K e' s W. unfold bind, get. rewrite Q by exact W. now apply K. Qed.
Lemma sm_nt (f : st -> bool) : (forall e' s, wider (ext s) e' -> f (set_ext e' s) = f s) -> sm (modify (fun s => set_nt (f s) s)).
Proof. intros Q e' s W. unfold modify. split; [reflexivity|]. now rewrite Q. Qed.
Lemma sm_map_err {A} f (m : M A) : sm m -> sm (map_err f m).
Proof. intros H e' s W. specialize (H e' s W). unfold map_err, try. destruct (m s) as [a s'|e s'| |]; cbn; auto. destruct H as [Q ->]. auto. Qed.
Lemma sm_guard {A} r (m : M A) : sm m -> sm (guard_with r m).
Proof.
  intros H e' s W. unfold guard_with. change (lim (set_ext e' s)) with (lim s). destruct (lim s) as [[|l]|]; auto.
  - specialize (H e' (set_lim (Some l) s) W). change (set_ext e' (set_lim (Some l) s)) with (set_lim (Some l) (set_ext e' s)) in H.
    destruct (m (set_lim (Some l) s)) as [a s'|e s'| |]; auto. destruct H as [Q ->]. auto.
  - now apply H.
Qed.
Lemma sm_implicit {A} (m : M A) err : sm m -> sm (s <- get ;; if x_implicit_some (ext s) then m else fail err).
Proof.
  intros H e' s W. unfold bind, get. destruct (x_implicit_some (ext s)) eqn:Q; [|exact I]. cbn [ext set_ext].
  destruct W as (W1 & W2 & W3 & W4). rewrite (W3 Q). apply H. repeat split; auto.
Qed.
Lemma sm_explicit {A} (m : M A) err : sm m -> sm (s <- get ;; if x_explicit_struct_names (ext s) then fail err else m).
Proof.
  intros H e' s W. unfold bind, get. destruct (x_explicit_struct_names (ext s)) eqn:Q; [exact I|]. cbn [ext set_ext].
  destruct W as (W1 & W2 & W3 & W4). destruct (x_explicit_struct_names e') eqn:Q'; [rewrite (W4 eq_refl) in Q; discriminate|]. apply H. repeat split; auto. congruence.
Qed.
Ltac get_same := let H1 := fresh in let H2 := fresh in intros ? ? (H1 & H2 & _); cbn [ext nt last_id rest set_ext]; rewrite ?H1, ?H2; reflexivity.
Create HintDb sm.
Ltac si1 :=
  match goal with
  | |- sm (bind get (fun s => if x_implicit_some (ext s) then _ else _)) => apply sm_implicit
  | |- sm (bind get (fun s => if x_explicit_struct_names (ext s) then _ else _)) => apply sm_explicit
  | |- sm (bind get _) => apply sm_get; [get_same|intros ?]
  | |- sm (bind _ _) => apply sm_bind; [|intros ?]
  | |- sm (map_err _ _) => apply sm_map_err
  | |- sm (guard _) => apply sm_guard
  | |- sm (guard_r _) => apply sm_guard
  | |- sm (modify (fun s => set_nt _ s)) => apply sm_nt; get_same
  | |- sm (modify _) => apply deaf_sm, deaf_modify; intros; reflexivity
  | |- _ => solve [auto with sm]
  | |- sm _ => apply deaf_sm; solve [auto with deaf]
  | |- sm (match ?x with _ => _ end) => destruct x
  end.
Ltac si := cbv zeta; repeat si1.

Lemma sm_struct_name n : sm (consume_struct_name n).
Proof. unfold consume_struct_name. apply sm_bind; [si|]. intros []; [si|apply deaf_sm; bl]. Qed.
#[local] Hint Resolve sm_struct_name : sm.
Lemma sm_has_element t h : sm (has_element t h).
Proof. unfold has_element. si. Qed.
#[local] Hint Resolve sm_has_element : sm.
Lemma sm_next_element {A} t (m : M A) h : sm m -> sm (next_element t m h).
Proof. intros H. unfold next_element. si. Qed.
#[local] Hint Resolve sm_next_element : sm.
Lemma sm_seq_loop {A} t (m : M A) n : sm m -> forall h, sm (seq_loop n t m h).
Proof. intros H. induction n as [|n IH]; intros h; cbn [seq_loop]; si. Qed.
#[local] Hint Resolve sm_seq_loop : sm.
Lemma sm_seq_all {A} t (m : M A) : sm m -> sm (seq_all t m).
Proof. intros H. unfold seq_all. si. Qed.
#[local] Hint Resolve sm_seq_all : sm.
Lemma sm_tuple {A} (l : list (M A)) : Forall sm l -> forall i h, sm (tuple_elems l i h).
Proof. intros H. induction H as [|m l H HL IH]; intros i h; cbn [tuple_elems]; si. Qed.
Lemma sm_next_key {A} t (m : M A) h : sm m -> sm (next_key t m h).
Proof. intros H. unfold next_key. si. Qed.
Lemma sm_next_value {A} (m : M A) : sm m -> sm (next_value m).
Proof. intros H. unfold next_value. si. Qed.
#[local] Hint Resolve sm_next_key sm_next_value : sm.
Lemma sm_map_loop {A B} t (k : M A) (v : M B) n : sm k -> sm v -> forall h, sm (map_loop n t k v h).
Proof. intros H V. induction n as [|n IH]; intros h; cbn [map_loop]; si. Qed.
#[local] Hint Resolve sm_map_loop : sm.
Lemma sm_map_all {A B} t (k : M A) (v : M B) : sm k -> sm v -> sm (map_all t k v).
Proof. intros H V. unfold map_all. si. Qed.
#[local] Hint Resolve sm_map_all : sm.
Lemma sm_identifier : sm de_identifier.
Proof. unfold de_identifier. si. Qed.
#[local] Hint Resolve sm_identifier : sm.
Lemma sm_seq {A} (m : M A) : sm m -> sm (de_seq m).
Proof. intros H. unfold de_seq. si. Qed.
Lemma sm_de_tuple {A} (m : M A) : sm m -> sm (de_tuple m).
Proof. intros H. unfold de_tuple. si. Qed.
Lemma sm_map {A} (m : M A) : sm m -> sm (de_map m).
Proof. intros H. unfold de_map. si. Qed.
Lemma sm_struct {A} n (m : M A) : sm m -> sm (struct_after_name n m).
Proof. intros H. unfold struct_after_name. si. Qed.
Lemma sm_option {A} (a : A) m : sm m -> sm (de_option a m).
Proof. intros H. unfold de_option. si. Qed.
Lemma sm_unit : sm de_unit.
Proof. unfold de_unit. si. Qed.
#[local] Hint Resolve sm_seq sm_de_tuple sm_map sm_struct sm_option sm_unit : sm.
Lemma sm_unit_struct n : sm (de_unit_struct n).
Proof. unfold de_unit_struct. si. Qed.
Lemma sm_newtype {A} n (m : M A) : sm m -> sm (de_newtype n m).
Proof. intros H. unfold de_newtype. si. Qed.
Lemma sm_float_range n : sm (float_range_or_value n).
Proof. unfold float_range_or_value. si. Qed.
#[local] Hint Resolve sm_unit_struct sm_newtype sm_float_range : sm.
Ltac si2 :=
  match goal with
  | |- _ => si1
  | |- sm (seq_all _ _) => apply sm_seq_all
  | |- sm (map_all _ _ _) => apply sm_map_all
  | |- sm (de_seq _) => apply sm_seq
  | |- sm (de_tuple _) => apply sm_de_tuple
  | |- sm (de_map _) => apply sm_map
  | |- sm (struct_after_name _ _) => apply sm_struct
  | |- sm (de_option _ _) => apply sm_option
  | |- sm (de_newtype _ _) => apply sm_newtype
  end.
Ltac sj := cbv zeta; repeat si2.
Lemma sm_bytes : sm de_bytes.
Proof. unfold de_bytes. sj. Qed.
#[local] Hint Resolve sm_bytes : sm.
Lemma sm_any_number_or_bytes : sm any_number_or_bytes.
Proof. unfold any_number_or_bytes. sj. Qed.
#[local] Hint Resolve sm_any_number_or_bytes : sm.
Lemma sm_any_main m : sm m -> sm (any_main m).
Proof. intros H. unfold any_main. sj. Qed.
#[local] Hint Resolve sm_any_main : sm.
Lemma sm_any f : sm (de_any f).
Proof. induction f as [|f IH]; cbn [de_any]; sj. Qed.
#[local] Hint Resolve sm_any : sm.
Lemma sm_any_value : sm any_value.
Proof. unfold any_value. sj. Qed.
#[local] Hint Resolve sm_any_value : sm.
Lemma sm_raw : sm de_raw.
Proof. unfold de_raw. sj. Qed.
Lemma sm_range n l : sm (range_prologue n l).
Proof. unfold range_prologue. sj. Qed.
#[local] Hint Resolve sm_raw sm_range : sm.
Lemma sm_field_key d l : sm (field_key d l).
Proof. unfold field_key. sj. Qed.
#[local] Hint Resolve sm_field_key : sm.
Lemma sm_struct_loop r d l n : (forall t, sm (r t)) -> forall acc h, sm (struct_loop r d l n acc h).
Proof. intros H. induction n as [|n IH]; intros acc h; cbn [struct_loop]; sj. Qed.
Lemma sm_collect o l acc : sm (collect o l acc).
Proof. induction l as [|[f t] l IH]; cbn [collect]; sj. Qed.
#[local] Hint Resolve sm_struct_loop sm_collect : sm.
Lemma sm_struct_body r d l o : (forall t, sm (r t)) -> sm (struct_body r d l o).
Proof. intros H. unfold struct_body. sj. Qed.
#[local] Hint Resolve sm_struct_body : sm.
Lemma sm_elems (r : ty -> M val) ts i h : (forall t, sm (r t)) -> sm (tuple_elems (map r ts) i h).
Proof. intros H. apply sm_tuple. induction ts; cbn; auto. Qed.
#[local] Hint Resolve sm_elems : sm.
Lemma sm_step tenv r t : (forall t, sm (r t)) -> sm (de_step tenv r t).
Proof. intros H. destruct t; cbn [de_step]; sj. Qed.
#[local] Hint Resolve sm_step : sm.
Lemma sm_ty tenv f : forall t, sm (de_ty tenv f t).
Proof. induction f as [|f IH]; intros t; cbn [de_ty]; sj. Qed.
#[local] Hint Resolve sm_ty : sm.

(** ** The buffer of derived enums and flattened structs *)
Lemma sm_try_fail {A B} (m : M A) (f : A -> M B) (g : err -> M B) : sm m -> (forall a, sm (f a)) ->
  (forall e s, match g e s with Ok _ _ => False | _ => True end) -> sm (try m f g).
Proof.
  intros H F G e' s W. specialize (H e' s W). unfold try. destruct (m s) as [a s'|e s'| |]; auto.
  - destruct H as [Q ->]. rewrite <- Q in W. specialize (F a e' s' W). destruct (f a s') as [b s2|e s2| |]; auto. destruct F as [Q2 F]. split; [congruence|exact F].
  - specialize (G e s'). destruct (g e s'); auto. destruct G.
Qed.
Lemma bind_fails {A B} (m : M A) (k : A -> M B) : (forall a s, match k a s with Ok _ _ => False | _ => True end) ->
  forall s, match bind m k s with Ok _ _ => False | _ => True end.
Proof. intros H s. unfold bind. destruct (m s); auto. apply H. Qed.
Lemma sm_content_struct con b o : (forall b, sm (con b)) -> sm (content_struct con b o).
Proof.
  intros H. unfold content_struct. sj. apply sm_try_fail; [apply H|intros ?; sj|].
  intros e. apply bind_fails. intros _. apply bind_fails. intros _ s. exact I.
Qed.
#[local] Hint Resolve sm_content_struct : sm.
Lemma sm_content_main con b : (forall b, sm (con b)) -> sm (content_main con b).
Proof. intros H. unfold content_main, content_tree. sj. Qed.
#[local] Hint Resolve sm_content_main : sm.
Lemma sm_content f : forall b, sm (de_content f b).
Proof. induction f as [|f IH]; intros b; cbn [de_content]; sj. Qed.
#[local] Hint Resolve sm_content : sm.
Lemma sm_content_value : sm content_value.
Proof. unfold content_value. sj. Qed.
#[local] Hint Resolve sm_content_value : sm.
Lemma sm_untagged tenv f us : sm (de_untagged tenv f us).
Proof. unfold de_untagged. sj. Qed.
Lemma sm_tag_value vs : sm (tag_value vs).
Proof. unfold tag_value, variant_of. sj. Qed.
#[local] Hint Resolve sm_tag_value : sm.
Lemma sm_tagged_loop tag vs n term key : sm key -> forall seen h, sm (tagged_loop tag vs n term key seen h).
Proof. intros K. induction n as [|n IH]; intros seen h; cbn [tagged_loop]; sj. Qed.
#[local] Hint Resolve sm_tagged_loop : sm.
Lemma sm_name : sm (k <- de_identifier ;; ret (XStr k)).
Proof. sj. Qed.
#[local] Hint Resolve sm_name : sm.
Lemma sm_tagged_map tag vs term key : sm key -> sm (tagged_map tag vs term key).
Proof. intros K. unfold tagged_map. sj. Qed.
Lemma sm_tagged_seq tag vs term : sm (tagged_seq tag vs term).
Proof. unfold tagged_seq, variant_of. sj. apply sm_next_element. sj. Qed.
#[local] Hint Resolve sm_tagged_map sm_tagged_seq : sm.
Lemma sm_tagged_any tag vs : sm (tagged_any tag vs).
Proof. unfold tagged_any, tagged_main, tagged_struct, untaggable. sj. Qed.
#[local] Hint Resolve sm_tagged_any : sm.
Lemma sm_tagged tenv f tag n vs : sm (de_tagged tenv f tag n vs).
Proof. unfold de_tagged. sj. Qed.
Lemma sm_fields_loop r d l n term : (forall t, sm (r t)) -> forall acc h, sm (fields_loop r d l n term acc h).
Proof. intros H. induction n as [|n IH]; intros acc h; cbn [fields_loop]; sj. Qed.
#[local] Hint Resolve sm_fields_loop : sm.
Lemma sm_any_struct tenv r d l : (forall t, sm (r t)) -> sm (any_struct tenv r d l).
Proof. intros H. unfold any_struct, any_struct_body, range_struct, fields_map. sj. Qed.
#[local] Hint Resolve sm_any_struct : sm.
Lemma sm_relevant_key tag c d n : forall h, sm (relevant_key tag c d n h).
Proof. induction n as [|n IH]; intros h; cbn [relevant_key]; sj. apply sm_next_key. unfold adjacent_key. sj. Qed.
#[local] Hint Resolve sm_relevant_key : sm.
Lemma sm_oof {A} : sm (@oof A).
Proof. apply deaf_sm, deaf_oof. Qed.
#[local] Hint Resolve sm_oof : sm.
Lemma sm_adjacent_tag tenv n vs : sm (adjacent_tag tenv n vs).
Proof. unfold adjacent_tag. sj. Qed.
#[local] Hint Resolve sm_adjacent_tag : sm.
Lemma sm_adjacent_value tenv f n k : sm (adjacent_value tenv f n k).
Proof. unfold adjacent_value. sj. Qed.
#[local] Hint Resolve sm_adjacent_value : sm.
Lemma sm_adjacent_body tenv f tag c d n vs : sm (adjacent_body tenv f tag c d n vs).
Proof. unfold adjacent_body, no_more, no_content. sj. Qed.
#[local] Hint Resolve sm_adjacent_body : sm.
Lemma sm_adjacent tenv f tag c d n vs : sm (de_adjacent tenv f tag c d n vs).
Proof. unfold de_adjacent. sj. Qed.
Lemma sm_string : sm parse_string.
Proof. apply deaf_sm, deaf_string. Qed.
#[local] Hint Resolve sm_string : sm.
Lemma sm_flat_loop tenv f ds n : forall acc h, sm (flat_loop tenv f ds n acc h).
Proof. induction n as [|n IH]; intros acc h; cbn [flat_loop]; sj. Qed.
#[local] Hint Resolve sm_flat_loop : sm.
Lemma sm_flat tenv f d n ds : sm (de_flat tenv f d n ds).
Proof. unfold de_flat, flat_map_body. sj. Qed.

Lemma sm_end : sm de_end.
Proof. unfold de_end. sj. Qed.
End WithEnv.
