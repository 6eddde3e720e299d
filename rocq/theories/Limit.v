(** The recursion limit only ever turns a result into the error
    [EExceededRecursionLimit]: a run with a limit is the run with a higher
    limit, or without one, until it fails with that error. *)
From Coq Require Import String Ascii NArith ZArith Lia Bool List.
From Verif Require Import Base Facts Value Data Parse De Span.
Import ListNotations.
Open Scope N_scope.
Open Scope list_scope.
Open Scope m_scope.

(** ** The lexer does not look at the limit *)
Definition on_st {A} (f : st -> st) (o : out A) : out A :=
  match o with Ok a s => Ok a (f s) | Err e s => Err e (f s) | Panic => Panic | OutOfFuel => OutOfFuel end.
Definition blind {A} (m : M A) : Prop := forall l s, m (set_lim l s) = on_st (set_lim l) (m s).

Lemma blind_bind {A B} (m : M A) (k : A -> M B) : blind m -> (forall a, blind (k a)) -> blind (bind m k).
Proof.
  intros H K l s. unfold bind. rewrite H. destruct (m s); cbn [on_st]; auto. apply K.
Qed.
Lemma blind_get {B} (k : st -> M B) : (forall l s, k (set_lim l s) = k s) -> (forall s, blind (k s)) -> blind (bind get k).
Proof. intros Q K l s. unfold bind, get. rewrite Q. apply K. Qed.
Lemma blind_try {A B} (m : M A) (f : A -> M B) g : blind m -> (forall a, blind (f a)) -> (forall e, blind (g e)) -> blind (try m f g).
Proof. intros H F G l s. unfold try. rewrite H. destruct (m s); cbn [on_st]; auto; [apply F|apply G]. Qed.
Lemma blind_map_err {A} f (m : M A) : blind m -> blind (map_err f m).
Proof. intros H. unfold map_err. apply blind_try; [assumption|intros a l s; reflexivity|intros e l s; reflexivity]. Qed.
Lemma blind_ret {A} (a : A) : blind (ret a).
Proof. intros l s. reflexivity. Qed.
Lemma blind_fail {A} e : blind (@fail A e).
Proof. intros l s. reflexivity. Qed.
Lemma blind_oof {A} : blind (@oof A).
Proof. intros l s. reflexivity. Qed.
Lemma blind_panic {A} : blind (@panic A).
Proof. intros l s. reflexivity. Qed.
Lemma blind_src : blind src.
Proof. intros l s. reflexivity. Qed.
Lemma blind_pre_ws : blind pre_ws_src.
Proof. intros l s. reflexivity. Qed.
Lemma blind_of_slice {A} (o : option A) : blind (of_slice o).
Proof. destruct o; [apply blind_ret|apply blind_panic]. Qed.
Lemma blind_modify f : (forall l s, f (set_lim l s) = set_lim l (f s)) -> blind (modify f).
Proof. intros H l s. unfold modify. now rewrite H. Qed.
Lemma blind_cursor : blind get_cursor_m.
Proof. intros l s. reflexivity. Qed.
Lemma blind_set_cursor c : blind (set_cursor_m c).
Proof. apply blind_modify. intros l s. destruct c as [[r p] w]. reflexivity. Qed.
Lemma blind_advance n : blind (advance_bytes n).
Proof. intros l s. unfold advance_bytes. cbn [rest set_lim]. destruct (bdrop n (rest s)); reflexivity. Qed.
Lemma blind_next_char : blind next_char.
Proof. intros l s. unfold next_char. cbn [rest set_lim]. destruct (rest s); reflexivity. Qed.
Lemma blind_peek : blind peek_char.
Proof. intros l s. reflexivity. Qed.
Lemma blind_peek_eof : blind peek_char_or_eof.
Proof. intros l s. unfold peek_char_or_eof. cbn [rest set_lim]. destruct (rest s); reflexivity. Qed.
Lemma blind_check_char c : blind (check_char c).
Proof. intros l s. reflexivity. Qed.
Lemma blind_check_str c : blind (check_str c).
Proof. intros l s. reflexivity. Qed.
Lemma blind_track : blind (modify track_ws).
Proof.
  apply blind_modify. intros l s. unfold track_ws. cbn [last_ws rest pre_ws set_lim]. destruct (last_ws s); [|reflexivity].
  destruct (Nat.ltb _ _); reflexivity.
Qed.
Lemma blind_update : blind update_last_ws.
Proof. intros l s. unfold update_last_ws. cbn [rest pre_ws set_lim]. destruct (Nat.leb _ _); reflexivity. Qed.
Lemma blind_unclosed : blind has_unclosed_line_comment.
Proof. intros l s. reflexivity. Qed.
Create HintDb blind.
#[local] Hint Resolve blind_ret blind_fail blind_oof blind_panic blind_src blind_pre_ws blind_of_slice blind_cursor blind_set_cursor
  blind_advance blind_next_char blind_peek blind_peek_eof blind_check_char blind_check_str blind_track blind_update blind_unclosed : blind.

Ltac bl1 :=
  match goal with
  | |- blind (bind get _) => apply blind_get; [intros; reflexivity|intros ?]
  | |- blind (bind _ _) => apply blind_bind; [|intros ?]
  | |- blind (try _ _ _) => apply blind_try; [|intros ?|intros ?]
  | |- blind (map_err _ _) => apply blind_map_err
  | |- blind (modify (set_last_ws _)) => apply blind_modify; intros; reflexivity
  | |- blind (modify (set_nt _)) => apply blind_modify; intros; reflexivity
  | |- blind (modify (set_last_id _)) => apply blind_modify; intros; reflexivity
  | |- blind (modify (fun s => set_nt _ s)) => apply blind_modify; intros; reflexivity
  | |- blind (modify (fun s => set_ext _ s)) => apply blind_modify; intros; reflexivity
  | |- _ => solve [auto with blind]
  | |- blind (match ?x with _ => _ end) => destruct x
  | |- blind (let _ := _ in _) => cbv zeta
  end.
Ltac bl := cbv zeta; repeat bl1.

Section WithEnv.
Context {E : Env}.
Lemma blind_skip_next : blind skip_next_char.
Proof. unfold skip_next_char. bl. Qed.
Lemma blind_consume_str p : blind (consume_str p).
Proof. unfold consume_str. bl. Qed.
Lemma blind_consume_char p : blind (consume_char p).
Proof. unfold consume_char. bl. Qed.
#[local] Hint Resolve blind_skip_next blind_consume_str blind_consume_char : blind.
Lemma blind_expect c e : blind (expect_char c e).
Proof. unfold expect_char. bl. Qed.
Lemma blind_while_from n p : blind (next_chars_while_from_len n p).
Proof. unfold next_chars_while_from_len. bl. Qed.
#[local] Hint Resolve blind_expect blind_while_from : blind.
Lemma blind_while p : blind (next_chars_while_len p).
Proof. unfold next_chars_while_len. bl. Qed.
Lemma blind_ident_other n : blind (check_ident_other_char n).
Proof. unfold check_ident_other_char. bl. Qed.
#[local] Hint Resolve blind_while blind_ident_other : blind.
Lemma blind_check_ident n : blind (check_ident n).
Proof. unfold check_ident. bl. Qed.
#[local] Hint Resolve blind_check_ident : blind.
Lemma blind_consume_ident n : blind (consume_ident n).
Proof. unfold consume_ident. bl. Qed.
#[local] Hint Resolve blind_consume_ident : blind.
Lemma blind_block f : forall n, blind (block_loop f n).
Proof. induction f as [|f IH]; intros [|n]; cbn [block_loop]; bl. Qed.
#[local] Hint Resolve blind_block : blind.
Lemma blind_comment : blind skip_comment.
Proof. unfold skip_comment. bl. Qed.
#[local] Hint Resolve blind_comment : blind.
Lemma blind_ws_loop f : blind (ws_loop f).
Proof. induction f as [|f IH]; cbn [ws_loop]; bl. Qed.
#[local] Hint Resolve blind_ws_loop : blind.
Lemma blind_skip_ws : blind skip_ws.
Proof. unfold skip_ws. bl. Qed.
#[local] Hint Resolve blind_skip_ws : blind.
Lemma blind_comma : blind comma.
Proof. unfold comma. bl. Qed.
Lemma blind_consume_all l : blind (consume_all l).
Proof. induction l as [|p l IH]; cbn [consume_all]; bl. Qed.
Lemma blind_skip_identifier : blind skip_identifier.
Proof. unfold skip_identifier. bl. Qed.
Lemma blind_identifier : blind identifier.
Proof. unfold identifier. bl. Qed.
#[local] Hint Resolve blind_comma blind_consume_all blind_skip_identifier blind_identifier : blind.
Lemma blind_struct_name n : blind (consume_struct_name n).
Proof. unfold consume_struct_name. bl. Qed.
#[local] Hint Resolve blind_struct_name : blind.
Lemma blind_decode_hex c : blind (decode_hex c).
Proof. unfold decode_hex. bl. Qed.
#[local] Hint Resolve blind_decode_hex : blind.
Lemma blind_int_digits k base neg whole i ds : forall acc, blind (int_digits k base neg whole i ds acc).
Proof. revert i. induction ds as [|c ds IH]; intros i acc; cbn [int_digits]; bl. Qed.
#[local] Hint Resolve blind_int_digits : blind.
Lemma blind_parse_integer k neg base : blind (parse_integer k neg base).
Proof. unfold parse_integer. bl. Qed.
#[local] Hint Resolve blind_parse_integer : blind.
Lemma blind_int_parse t neg base : blind (int_parse t neg base).
Proof. unfold int_parse. bl. Qed.
Lemma blind_try_int t p : blind (try_from_parsed_integer t p).
Proof. unfold try_from_parsed_integer. bl. Qed.
Lemma blind_int_suffix l : blind (consume_int_suffix l).
Proof. induction l as [|k l IH]; cbn [consume_int_suffix]; bl. Qed.
Lemma blind_decode_ascii : blind decode_ascii_escape.
Proof. unfold decode_ascii_escape. bl. Qed.
#[local] Hint Resolve blind_int_parse blind_try_int blind_int_suffix blind_decode_ascii : blind.
Lemma blind_escape_more n : forall acc, blind (escape_more n acc).
Proof. induction n as [|n IH]; intros acc; cbn [escape_more]; bl. Qed.
Lemma blind_unicode_digits n : forall c acc, blind (unicode_digits n c acc).
Proof. induction n as [|n IH]; intros c acc; cbn [unicode_digits]; bl. Qed.
#[local] Hint Resolve blind_escape_more blind_unicode_digits : blind.
Lemma blind_escape b c : blind (parse_escape b c).
Proof. unfold parse_escape. bl. Qed.
Lemma blind_slice_before a b : blind (slice_before a b).
Proof. unfold slice_before. bl. Qed.
#[local] Hint Resolve blind_escape blind_slice_before : blind.
Lemma blind_byte_literal t b : blind (byte_literal t b).
Proof. unfold byte_literal. bl. Qed.
Lemma blind_integer_body t neg base b : blind (integer_body t neg base b).
Proof. unfold integer_body. bl. Qed.
#[local] Hint Resolve blind_byte_literal blind_integer_body : blind.
Lemma blind_integer t : blind (integer t).
Proof. unfold integer. bl. Qed.
Lemma blind_float_parse t s : blind (float_parse t s).
Proof. unfold float_parse. bl. Qed.
Lemma blind_try_float t p : blind (try_from_parsed_float t p).
Proof. unfold try_from_parsed_float. bl. Qed.
#[local] Hint Resolve blind_integer blind_float_parse blind_try_float : blind.
Lemma blind_float_lits t l : blind (float_lits t l).
Proof. induction l as [|[[w a] b] l IH]; cbn [float_lits]; bl. Qed.
#[local] Hint Resolve blind_float_lits : blind.
Lemma blind_float t : blind (float t).
Proof. unfold float. bl. Qed.
Lemma blind_is_float : blind next_bytes_is_float.
Proof. unfold next_bytes_is_float. bl. Qed.
#[local] Hint Resolve blind_float blind_is_float : blind.
Lemma blind_any_number : blind any_number.
Proof. unfold any_number. bl. Qed.
Lemma blind_bool : blind parse_bool.
Proof. unfold parse_bool. bl. Qed.
Lemma blind_char : blind parse_char.
Proof. unfold parse_char. bl. Qed.
#[local] Hint Resolve blind_any_number blind_bool blind_char : blind.
Lemma blind_escaped_loop n : forall b acc x, blind (escaped_loop n b acc x).
Proof. induction n as [|n IH]; intros b acc x; cbn [escaped_loop]; bl. Qed.
#[local] Hint Resolve blind_escaped_loop : blind.
Lemma blind_escaped_buf b : blind (escaped_byte_buf b).
Proof. unfold escaped_byte_buf. bl. Qed.
Lemma blind_raw_buf : blind raw_byte_buf.
Proof. unfold raw_byte_buf. bl. Qed.
#[local] Hint Resolve blind_escaped_buf blind_raw_buf : blind.
Lemma blind_string : blind parse_string.
Proof. unfold parse_string, escaped_string, raw_string, finish_string. bl. Qed.
#[local] Hint Resolve blind_string : blind.
Lemma blind_bytes_no_base64 : blind byte_string_no_base64.
Proof. unfold byte_string_no_base64, escaped_byte_string, raw_byte_string, finish_bytes. bl. Qed.
Lemma blind_base64_error {A} s : blind (@base64_error A s).
Proof. unfold base64_error. bl. Qed.
#[local] Hint Resolve blind_bytes_no_base64 blind_base64_error : blind.
Lemma blind_byte_string : blind byte_string.
Proof. unfold byte_string, escaped_string, raw_string, finish_string. bl. Qed.
Lemma blind_braces n : forall b, blind (braces_loop n b).
Proof. induction n as [|n IH]; intros [|b]; cbn [braces_loop]; unfold attempt; bl. Qed.
#[local] Hint Resolve blind_byte_string blind_braces : blind.
Lemma blind_struct_type u p : blind (check_struct_type u p).
Proof. unfold check_struct_type, check_struct_type_inner. bl. Qed.
Lemma blind_ext_loop n : forall acc, blind (extension_loop n acc).
Proof. induction n as [|n IH]; intros acc; cbn [extension_loop]; bl. Qed.
#[local] Hint Resolve blind_struct_type blind_ext_loop : blind.
Lemma blind_attribute : blind attribute.
Proof. unfold attribute, extension_list. bl. Qed.
#[local] Hint Resolve blind_attribute : blind.
Lemma blind_attr_loop n : blind (attr_loop n).
Proof. induction n as [|n IH]; cbn [attr_loop]; bl. Qed.
#[local] Hint Resolve blind_attr_loop : blind.
Lemma blind_parser_new : blind parser_new.
Proof. unfold parser_new. bl. Qed.
#[local] Hint Resolve blind_parser_new : blind.

(** ** Raising the limit *)
(** the limit [l] raised by [d], or taken away if [d] is [None] *)
Definition up (d l : option nat) : option nat :=
  match d, l with Some k, Some n => Some (k + n)%nat | _, _ => None end.
Definition lift (d : option nat) (s : st) : st := set_lim (up d (lim s)) s.

(** raising the limit changes nothing but failures for exceeding it *)
Definition raised {A} (d : option nat) (o o' : out A) : Prop :=
  match o with
  | Ok a s' => o' = Ok a (lift d s')
  | Err e s' => e = EExceededRecursionLimit \/ o' = Err e (lift d s')
  | Panic => o' = Panic
  | OutOfFuel => o' = OutOfFuel
  end.
Definition sim {A} (m : M A) : Prop := forall d s, raised d (m s) (m (lift d s)).

Lemma set_lim_id s : set_lim (lim s) s = s.
Proof. now destruct s. Qed.
Lemma set_lim_same l s : s = set_lim l s -> l = lim s.
Proof. intros Q. apply (f_equal lim) in Q. now rewrite Q. Qed.
Lemma blind_sim {A} (m : M A) : blind m -> sim m.
Proof.
  intros H d s. pose proof (H (lim s) s) as Q. rewrite set_lim_id in Q.
  assert (R : m (lift d s) = on_st (set_lim (up d (lim s))) (m s)) by apply H.
  rewrite R. destruct (m s) as [a s'|e s'| |]; cbn [on_st raised] in *; auto.
  - apply (f_equal (fun o => match o with Ok _ x => x | _ => s' end)) in Q. apply set_lim_same in Q.
    unfold lift. now rewrite Q.
  - apply (f_equal (fun o => match o with Err _ x => x | _ => s' end)) in Q. apply set_lim_same in Q.
    right. unfold lift. now rewrite Q.
Qed.
Lemma sim_bind {A B} (m : M A) (k : A -> M B) : sim m -> (forall a, sim (k a)) -> sim (bind m k).
Proof.
  intros H K d s. specialize (H d s). unfold bind. destruct (m s) as [a s'|e s'| |]; cbn [raised] in *; auto.
  - rewrite H. apply K.
  - destruct H as [H|H]; auto. right. now rewrite H.
  - now rewrite H.
  - now rewrite H.
Qed.
Lemma sim_get {B} (k : st -> M B) : (forall l s, k (set_lim l s) = k s) -> (forall s, sim (k s)) -> sim (bind get k).
Proof.
  intros Q K d s. unfold bind, get. assert (R : k (lift d s) = k s) by apply Q. rewrite R. apply K.
Qed.
Lemma sim_map_err {A} f (m : M A) : f EExceededRecursionLimit = EExceededRecursionLimit -> sim m -> sim (map_err f m).
Proof.
  intros F H d s. specialize (H d s). unfold map_err, try. destruct (m s) as [a s'|e s'| |]; cbn [raised] in *; auto.
  - now rewrite H.
  - destruct H as [->|H]; [left; assumption|]. rewrite H. right. reflexivity.
  - now rewrite H.
  - now rewrite H.
Qed.
Lemma sim_guard {A} r (m : M A) : sim m -> sim (guard_with r m).
Proof.
  intros H d s. unfold guard_with. destruct (lim s) as [[|l]|] eqn:L; cbn [raised]; auto.
  - specialize (H d (set_lim (Some l) s)).
    assert (Q : lift d (set_lim (Some l) s) = set_lim (up d (Some l)) s) by reflexivity. rewrite Q in H.
    assert (U : lim (lift d s) = option_map S (up d (Some l)))
      by (unfold lift; cbn [lim set_lim]; rewrite L; destruct d; cbn; f_equal; lia).
    assert (V : forall x, lift d (set_lim (option_map S (lim x)) x) = set_lim (option_map S (lim (lift d x))) (lift d x)).
    { intros x. unfold lift. destruct x as [? ? ? ? ? ? ? lx]. destruct d as [k|], lx as [n|]; unfold set_lim; cbn; try reflexivity. repeat f_equal. lia. }
    assert (W : d = None -> forall x, lift d (set_lim (option_map S (lim x)) x) = lift d x) by (intros -> x; reflexivity).
    rewrite U. destruct d as [k|]; cbn [up option_map] in *.
    + change (set_lim (Some (k + l)%nat) (lift (Some k) s)) with (set_lim (Some (k + l)%nat) s).
      destruct (m (set_lim (Some l) s)) as [a s'|e s'| |]; cbn [raised] in *; auto.
      * rewrite H, V. reflexivity.
      * destruct H as [H|H]; auto. right. rewrite H. destruct r; rewrite ?V; reflexivity.
      * now rewrite H.
      * now rewrite H.
    + change (lift None s) with (set_lim None s).
      destruct (m (set_lim (Some l) s)) as [a s'|e s'| |]; cbn [raised] in *; auto.
      destruct H as [H|H]; auto. right. rewrite H. destruct r; reflexivity.
  - specialize (H d s). assert (U : lim (lift d s) = None) by (unfold lift; cbn; rewrite L; destruct d; reflexivity).
    rewrite U. exact H.
Qed.

Create HintDb sim.
Ltac si1 :=
  match goal with
  | |- sim (bind get _) => apply sim_get; [intros; reflexivity|intros ?]
  | |- sim (bind _ _) => apply sim_bind; [|intros ?]
  | |- sim (map_err _ _) => apply sim_map_err; [reflexivity|]
  | |- sim (guard _) => apply sim_guard
  | |- sim (guard_r _) => apply sim_guard
  | |- sim (modify _) => apply blind_sim, blind_modify; intros; reflexivity
  | |- _ => solve [auto with sim]
  | |- sim _ => apply blind_sim; solve [auto with blind]
  | |- sim (match ?x with _ => _ end) => destruct x
  end.
Ltac si := cbv zeta; repeat si1.

Lemma sim_has_element t h : sim (has_element t h).
Proof. unfold has_element. si. Qed.
#[local] Hint Resolve sim_has_element : sim.
Lemma sim_next_element {A} t (m : M A) h : sim m -> sim (next_element t m h).
Proof. intros H. unfold next_element. si. Qed.
#[local] Hint Resolve sim_next_element : sim.
Lemma sim_seq_loop {A} t (m : M A) n : sim m -> forall h, sim (seq_loop n t m h).
Proof. intros H. induction n as [|n IH]; intros h; cbn [seq_loop]; si. Qed.
#[local] Hint Resolve sim_seq_loop : sim.
Lemma sim_seq_all {A} t (m : M A) : sim m -> sim (seq_all t m).
Proof. intros H. unfold seq_all. si. Qed.
#[local] Hint Resolve sim_seq_all : sim.
Lemma sim_tuple {A} (l : list (M A)) : Forall sim l -> forall i h, sim (tuple_elems l i h).
Proof. intros H. induction H as [|m l H HL IH]; intros i h; cbn [tuple_elems]; si. Qed.
Lemma sim_next_key {A} t (m : M A) h : sim m -> sim (next_key t m h).
Proof. intros H. unfold next_key. si. Qed.
Lemma sim_next_value {A} (m : M A) : sim m -> sim (next_value m).
Proof. intros H. unfold next_value. si. Qed.
#[local] Hint Resolve sim_next_key sim_next_value : sim.
Lemma sim_map_loop {A B} t (k : M A) (v : M B) n : sim k -> sim v -> forall h, sim (map_loop n t k v h).
Proof. intros H V. induction n as [|n IH]; intros h; cbn [map_loop]; si. Qed.
#[local] Hint Resolve sim_map_loop : sim.
Lemma sim_map_all {A B} t (k : M A) (v : M B) : sim k -> sim v -> sim (map_all t k v).
Proof. intros H V. unfold map_all. si. Qed.
#[local] Hint Resolve sim_map_all : sim.
Lemma sim_identifier : sim de_identifier.
Proof. unfold de_identifier. si. Qed.
#[local] Hint Resolve sim_identifier : sim.
Lemma sim_seq {A} (m : M A) : sim m -> sim (de_seq m).
Proof. intros H. unfold de_seq. si. Qed.
Lemma sim_de_tuple {A} (m : M A) : sim m -> sim (de_tuple m).
Proof. intros H. unfold de_tuple. si. Qed.
Lemma sim_map {A} (m : M A) : sim m -> sim (de_map m).
Proof. intros H. unfold de_map. si. Qed.
Lemma sim_struct {A} n (m : M A) : sim m -> sim (struct_after_name n m).
Proof. intros H. unfold struct_after_name. si. Qed.
Lemma sim_option {A} (a : A) m : sim m -> sim (de_option a m).
Proof. intros H. unfold de_option. si. Qed.
Lemma sim_unit : sim de_unit.
Proof. unfold de_unit. si. Qed.
#[local] Hint Resolve sim_seq sim_de_tuple sim_map sim_struct sim_option sim_unit : sim.
Lemma sim_unit_struct n : sim (de_unit_struct n).
Proof. unfold de_unit_struct. si. Qed.
Lemma sim_newtype {A} n (m : M A) : sim m -> sim (de_newtype n m).
Proof. intros H. unfold de_newtype. si. Qed.
Lemma sim_float_range n : sim (float_range_or_value n).
Proof. unfold float_range_or_value. si. Qed.
#[local] Hint Resolve sim_unit_struct sim_newtype sim_float_range : sim.
Ltac si2 :=
  match goal with
  | |- _ => si1
  | |- sim (seq_all _ _) => apply sim_seq_all
  | |- sim (map_all _ _ _) => apply sim_map_all
  | |- sim (de_seq _) => apply sim_seq
  | |- sim (de_tuple _) => apply sim_de_tuple
  | |- sim (de_map _) => apply sim_map
  | |- sim (struct_after_name _ _) => apply sim_struct
  | |- sim (de_option _ _) => apply sim_option
  | |- sim (de_newtype _ _) => apply sim_newtype
  end.
Ltac sj := cbv zeta; repeat si2.
Lemma sim_bytes : sim de_bytes.
Proof. unfold de_bytes. sj. Qed.
#[local] Hint Resolve sim_bytes : sim.
Lemma sim_any_number_or_bytes : sim any_number_or_bytes.
Proof. unfold any_number_or_bytes. sj. Qed.
#[local] Hint Resolve sim_any_number_or_bytes : sim.
Lemma sim_any_main m : sim m -> sim (any_main m).
Proof. intros H. unfold any_main. sj. Qed.
#[local] Hint Resolve sim_any_main : sim.
Lemma sim_any f : sim (de_any f).
Proof. induction f as [|f IH]; cbn [de_any]; sj. Qed.
#[local] Hint Resolve sim_any : sim.
Lemma sim_any_value : sim any_value.
Proof. unfold any_value. sj. Qed.
#[local] Hint Resolve sim_any_value : sim.
Lemma sim_raw : sim de_raw.
Proof. unfold de_raw. sj. Qed.
Lemma sim_range n l : sim (range_prologue n l).
Proof. unfold range_prologue. sj. Qed.
#[local] Hint Resolve sim_raw sim_range : sim.
Lemma sim_field_key d l : sim (field_key d l).
Proof. unfold field_key. sj. Qed.
#[local] Hint Resolve sim_field_key : sim.
Lemma sim_struct_loop r d l n : (forall t, sim (r t)) -> forall acc h, sim (struct_loop r d l n acc h).
Proof. intros H. induction n as [|n IH]; intros acc h; cbn [struct_loop]; sj. Qed.
Lemma sim_collect o l acc : sim (collect o l acc).
Proof. induction l as [|[f t] l IH]; cbn [collect]; sj. Qed.
#[local] Hint Resolve sim_struct_loop sim_collect : sim.
Lemma sim_struct_body r d l o : (forall t, sim (r t)) -> sim (struct_body r d l o).
Proof. intros H. unfold struct_body. sj. Qed.
#[local] Hint Resolve sim_struct_body : sim.
Lemma sim_elems (r : ty -> M val) ts i h : (forall t, sim (r t)) -> sim (tuple_elems (map r ts) i h).
Proof. intros H. apply sim_tuple. induction ts; cbn; auto. Qed.
#[local] Hint Resolve sim_elems : sim.
Lemma sim_step tenv r t : (forall t, sim (r t)) -> sim (de_step tenv r t).
Proof. intros H. destruct t; cbn [de_step]; sj. Qed.
#[local] Hint Resolve sim_step : sim.
Lemma sim_ty tenv f : forall t, sim (de_ty tenv f t).
Proof. induction f as [|f IH]; intros t; cbn [de_ty]; sj. Qed.

(** ** Documents *)
(** [l'] allows what [l] allows *)
Definition looser (l l' : option nat) : Prop :=
  match l, l' with _, None => True | Some n, Some n' => (n <= n')%nat | None, Some _ => False end.
Lemma looser_up l l' : looser l l' -> exists d, l' = up d l.
Proof.
  destruct l as [n|], l' as [n'|]; cbn; intros L; try contradiction.
  - exists (Some (n' - n)%nat). cbn. f_equal. lia.
  - now exists None.
  - now exists None.
Qed.
Lemma span_error_lift text d s : span_error text (lift d s) = span_error text s.
Proof. reflexivity. Qed.
Lemma from_str_eq {A} (o : opts) (m : M A) text : from_str o m text =
  match parser_new (init_state text) with
  | Ok _ s => bind m (fun v => bind de_end (fun _ => ret v)) (set_lim (o_limit o) (set_ext (exts_or (ext s) (o_exts o)) s))
  | Err e s => Err e s
  | Panic => Panic
  | OutOfFuel => OutOfFuel
  end.
Proof. reflexivity. Qed.
Lemma from_str_raised {A} (m : M A) e l d text : sim m ->
  raised d (from_str (Opts e l) m text) (from_str (Opts e (up d l)) m text).
Proof.
  intros H. rewrite !from_str_eq. cbn [o_exts o_limit].
  destruct (parser_new (init_state text)) as [u s|x s| |] eqn:Q; try reflexivity.
  - assert (K : sim (bind m (fun v => bind de_end (fun _ => ret v)))).
    { apply sim_bind; [assumption|]. intros v. unfold de_end. sj. }
    exact (K d (set_lim l (set_ext (exts_or (ext s) e) s))).
  - right. f_equal. pose proof (blind_parser_new None (init_state text)) as B.
    change (set_lim None (init_state text)) with (init_state text) in B. rewrite Q in B. cbn [on_st] in B.
    apply (f_equal (fun o => match o with Err _ x => x | _ => s end)) in B. apply set_lim_same in B.
    unfold lift. rewrite <- B. rewrite <- (set_lim_id s) at 1. rewrite <- B. destruct d; reflexivity.
Qed.
Theorem from_str_limit {A} (m : M A) e l l' text : sim m -> looser l l' ->
  options_from_str (Opts e l) m text = options_from_str (Opts e l') m text \/
  exists s, from_str (Opts e l) m text = Err EExceededRecursionLimit s.
Proof.
  intros H L. apply looser_up in L as (d & ->). assert (R := from_str_raised m e l d text H).
  unfold options_from_str, spanned. destruct (from_str (Opts e l) m text) as [a s|x s| |]; cbn [raised] in R.
  - left. now rewrite R.
  - destruct R as [->|R]; [right; eauto|left]. now rewrite R.
  - left. now rewrite R.
  - left. now rewrite R.
Qed.
End WithEnv.
