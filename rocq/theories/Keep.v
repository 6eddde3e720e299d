(** The whitespace that the parser keeps track of. *)
From Coq Require Import String Ascii NArith ZArith Lia Bool List.
From Verif Require Import Base Facts Value Data Parse De Wp Layout LexSafe LexWs.
Import ListNotations.
Open Scope N_scope.
Open Scope list_scope.
Open Scope m_scope.

(** ** The lexer goes forward and leaves it alone *)
Definition same (s0 s : st) : Prop := pre_ws s = pre_ws s0 /\ last_ws s = last_ws s0 /\ suf (rest s) (rest s0).
Lemma same_refl s : same s s.
Proof. unfold same. auto using suf_refl. Qed.

Section Still.
Variable s0 : st.
Definition still {A} (m : M A) : Prop := forall s, same s0 s ->
  match m s with Ok _ s' | Err _ s' => same s0 s' | _ => True end.
Lemma still_bind {A B} (m : M A) (k : A -> M B) : still m -> (forall a, still (k a)) -> still (bind m k).
Proof. intros H K s S. specialize (H s S). unfold bind. destruct (m s) as [a s'|x s'| |]; auto. now apply K. Qed.
Lemma still_get {B} (k : st -> M B) : (forall s, still (k s)) -> still (bind get k).
Proof. intros K s. apply K. Qed.
Lemma still_try {A B} (m : M A) (f : A -> M B) g : still m -> (forall a, still (f a)) -> (forall e, still (g e)) -> still (try m f g).
Proof.
  intros H F G s S. specialize (H s S). unfold try. destruct (m s) as [a s'|x s'| |]; auto; [now apply F|now apply G].
Qed.
Lemma still_map_err {A} f (m : M A) : still m -> still (map_err f m).
Proof. intros H s S. specialize (H s S). unfold map_err, try. destruct (m s) as [a s'|x s'| |]; cbn; auto. Qed.
Lemma still_ret {A} (a : A) : still (ret a).
Proof. intros s S. exact S. Qed.
Lemma still_fail {A} x : still (@fail A x).
Proof. intros s S. exact S. Qed.
Lemma still_oof {A} : still (@oof A).
Proof. intros s S. exact Logic.I. Qed.
Lemma still_panic {A} : still (@panic A).
Proof. intros s S. exact Logic.I. Qed.
Lemma still_src : still src.
Proof. intros s S. exact S. Qed.
Lemma still_of_slice {A} (o : option A) : still (of_slice o).
Proof. destruct o; [apply still_ret|apply still_panic]. Qed.
(** going back to where one was *)
Lemma still_cursor {B} (k : cursor -> M B) : (forall s, same s0 s -> still (k (get_cursor s))) -> still (bind get_cursor_m k).
Proof. intros K s S. exact (K s S s S). Qed.
Lemma still_set_cursor s1 : same s0 s1 -> still (set_cursor_m (get_cursor s1)).
Proof. intros S1 s S. exact S1. Qed.
Lemma still_advance n : still (advance_bytes n).
Proof.
  intros s (P & L & R). unfold advance_bytes. destruct (bdrop n (rest s)) eqn:Q; cbn; auto. split; [exact P|]. split; [exact L|].
  cbn. eapply suf_trans; [eapply suf_bdrop; exact Q|exact R].
Qed.
Lemma still_next_char : still next_char.
Proof.
  intros s (P & L & R). unfold next_char. destruct (rest s) as [|c r] eqn:Q; cbn; [split; [exact P|split; [exact L|now rewrite Q]]|].
  split; [exact P|]. split; [exact L|]. cbn. eapply suf_tl; exact R.
Qed.
Lemma still_peek : still peek_char.
Proof. intros s S. exact S. Qed.
Lemma still_peek_eof : still peek_char_or_eof.
Proof. intros s S. unfold peek_char_or_eof. destruct (rest s); cbn; auto. Qed.
Lemma still_check_char c : still (check_char c).
Proof. intros s S. exact S. Qed.
Lemma still_check_str c : still (check_str c).
Proof. intros s S. exact S. Qed.
Create HintDb still.
#[local] Hint Resolve still_ret still_fail still_oof still_panic still_src still_of_slice
  still_advance still_next_char still_peek still_peek_eof still_check_char still_check_str still_set_cursor : still.
Ltac sl1 :=
  match goal with
  | |- still (bind get _) => apply still_get; intros ?
  | |- still (bind get_cursor_m _) => apply still_cursor; intros ? ?
  | |- still (bind _ _) => apply still_bind; [|intros ?]
  | |- still (try _ _ _) => apply still_try; [|intros ?|intros ?]
  | |- still (map_err _ _) => apply still_map_err
  | |- _ => solve [auto with still]
  | |- still (match ?x with _ => _ end) => destruct x
  | |- still (let _ := _ in _) => cbv zeta
  end.
Ltac sl := cbv zeta; repeat sl1.
Context {E : Env}.
Lemma still_skip_next : still skip_next_char.
Proof. unfold skip_next_char. sl. Qed.
Lemma still_consume_str p : still (consume_str p).
Proof. unfold consume_str. sl. Qed.
Lemma still_consume_char p : still (consume_char p).
Proof. unfold consume_char. sl. Qed.
#[local] Hint Resolve still_skip_next still_consume_str still_consume_char : still.
Lemma still_expect c e : still (expect_char c e).
Proof. unfold expect_char. sl. Qed.
#[local] Hint Resolve still_expect : still.
Lemma still_while_from n p : still (next_chars_while_from_len n p).
Proof. unfold next_chars_while_from_len. sl. Qed.
#[local] Hint Resolve still_while_from : still.
Lemma still_while p : still (next_chars_while_len p).
Proof. unfold next_chars_while_len. sl. Qed.
Lemma still_ident_other n : still (check_ident_other_char n).
Proof. unfold check_ident_other_char. sl. Qed.
#[local] Hint Resolve still_while still_ident_other : still.
Lemma still_check_ident n : still (check_ident n).
Proof. unfold check_ident. sl. Qed.
#[local] Hint Resolve still_check_ident : still.
Lemma still_consume_ident n : still (consume_ident n).
Proof. unfold consume_ident. sl. Qed.
#[local] Hint Resolve still_consume_ident : still.
Lemma still_block f : forall n, still (block_loop f n).
Proof. induction f as [|f IH]; intros [|n]; cbn [block_loop]; sl. Qed.
#[local] Hint Resolve still_block : still.
Lemma still_comment : still skip_comment.
Proof. unfold skip_comment. sl. Qed.
#[local] Hint Resolve still_comment : still.
Lemma still_ws_loop f : still (ws_loop f).
Proof. induction f as [|f IH]; cbn [ws_loop]; sl. Qed.
#[local] Hint Resolve still_ws_loop : still.
Lemma still_skip_identifier : still skip_identifier.
Proof. unfold skip_identifier. sl. Qed.
Lemma still_identifier : still identifier.
Proof. unfold identifier. sl. Qed.
#[local] Hint Resolve still_skip_identifier still_identifier : still.
Lemma still_struct_name n : still (consume_struct_name n).
Proof. unfold consume_struct_name. sl. Qed.
#[local] Hint Resolve still_struct_name : still.
Lemma still_decode_hex c : still (decode_hex c).
Proof. unfold decode_hex. sl. Qed.
#[local] Hint Resolve still_decode_hex : still.
Lemma still_int_digits k base neg whole i ds : forall acc, still (int_digits k base neg whole i ds acc).
Proof. revert i. induction ds as [|c ds IH]; intros i acc; cbn [int_digits]; sl. Qed.
#[local] Hint Resolve still_int_digits : still.
Lemma still_parse_integer k neg base : still (parse_integer k neg base).
Proof. unfold parse_integer. sl. Qed.
#[local] Hint Resolve still_parse_integer : still.
Lemma still_int_parse t neg base : still (int_parse t neg base).
Proof. unfold int_parse. sl. Qed.
Lemma still_try_int t p : still (try_from_parsed_integer t p).
Proof. unfold try_from_parsed_integer. sl. Qed.
Lemma still_int_suffix l : still (consume_int_suffix l).
Proof. induction l as [|k l IH]; cbn [consume_int_suffix]; sl. Qed.
Lemma still_decode_ascii : still decode_ascii_escape.
Proof. unfold decode_ascii_escape. sl. Qed.
#[local] Hint Resolve still_int_parse still_try_int still_int_suffix still_decode_ascii : still.
Lemma still_escape_more n : forall acc, still (escape_more n acc).
Proof. induction n as [|n IH]; intros acc; cbn [escape_more]; sl. Qed.
Lemma still_unicode_digits n : forall c acc, still (unicode_digits n c acc).
Proof. induction n as [|n IH]; intros c acc; cbn [unicode_digits]; sl. Qed.
#[local] Hint Resolve still_escape_more still_unicode_digits : still.
Lemma still_escape b c : still (parse_escape b c).
Proof. unfold parse_escape. sl. Qed.
Lemma still_slice_before a b : still (slice_before a b).
Proof. unfold slice_before. sl. Qed.
#[local] Hint Resolve still_escape still_slice_before : still.
Lemma still_byte_literal t b : still (byte_literal t b).
Proof. unfold byte_literal. sl. Qed.
Lemma still_integer_body t neg base b : still (integer_body t neg base b).
Proof. unfold integer_body. sl. Qed.
#[local] Hint Resolve still_byte_literal still_integer_body : still.
Lemma still_integer t : still (integer t).
Proof. unfold integer. sl. Qed.
Lemma still_float_parse t s : still (float_parse t s).
Proof. unfold float_parse. sl. Qed.
Lemma still_try_float t p : still (try_from_parsed_float t p).
Proof. unfold try_from_parsed_float. sl. Qed.
#[local] Hint Resolve still_integer still_float_parse still_try_float : still.
Lemma still_float_lits t l : still (float_lits t l).
Proof. induction l as [|[[w a] b] l IH]; cbn [float_lits]; sl. Qed.
#[local] Hint Resolve still_float_lits : still.
Lemma still_float t : still (float t).
Proof. unfold float. sl. Qed.
Lemma still_is_float : still next_bytes_is_float.
Proof. unfold next_bytes_is_float. sl. Qed.
#[local] Hint Resolve still_float still_is_float : still.
Lemma still_any_number : still any_number.
Proof. unfold any_number. sl. Qed.
Lemma still_bool : still parse_bool.
Proof. unfold parse_bool. sl. Qed.
Lemma still_char : still parse_char.
Proof. unfold parse_char. sl. Qed.
#[local] Hint Resolve still_any_number still_bool still_char : still.
Lemma still_escaped_loop n : forall b acc x, still (escaped_loop n b acc x).
Proof. induction n as [|n IH]; intros b acc x; cbn [escaped_loop]; sl. Qed.
#[local] Hint Resolve still_escaped_loop : still.
Lemma still_escaped_buf b : still (escaped_byte_buf b).
Proof. unfold escaped_byte_buf. sl. Qed.
Lemma still_raw_buf : still raw_byte_buf.
Proof. unfold raw_byte_buf. sl. Qed.
#[local] Hint Resolve still_escaped_buf still_raw_buf : still.
Lemma still_string : still parse_string.
Proof. unfold parse_string, escaped_string, raw_string, finish_string. sl. Qed.
#[local] Hint Resolve still_string : still.
Lemma still_bytes_no_base64 : still byte_string_no_base64.
Proof. unfold byte_string_no_base64, escaped_byte_string, raw_byte_string, finish_bytes. sl. Qed.
Lemma still_base64_error {A} s : still (@base64_error A s).
Proof. unfold base64_error. sl. Qed.
#[local] Hint Resolve still_bytes_no_base64 still_base64_error : still.
Lemma still_byte_string : still byte_string.
Proof. unfold byte_string, escaped_string, raw_string, finish_string. sl. Qed.
Lemma still_float_range n : still (float_range_or_value n).
Proof. unfold float_range_or_value. sl. Qed.
Lemma still_range n l : still (range_prologue n l).
Proof. unfold range_prologue. sl. Qed.
End Still.
#[export] Hint Resolve still_ret still_fail still_oof still_panic still_src still_of_slice
  still_advance still_next_char still_peek still_peek_eof still_check_char still_check_str still_consume_str still_consume_char
  still_check_ident still_consume_ident still_skip_identifier still_identifier still_struct_name still_integer still_float
  still_any_number still_bool still_char still_string still_byte_string still_float_range still_range : still.

(** ** What skip_ws knows *)
(** the text from [pre_ws] on is the last stretch of layout, and then what has
    been read since, if there is anything after it *)
Definition tracked (s : st) : Prop := exists p q, pre_ws s = p ++ q /\ suf (rest s) q /\ final_layout p /\
  (q = [] \/ (last_ws s = Some (blen p) /\ layout p)).
(** nothing has been read since the last stretch of layout *)
Definition ready (s : st) : Prop := exists p, pre_ws s = p ++ rest s /\
  ((rest s = [] /\ final_layout p) \/ (last_ws s = Some (blen p) /\ layout p)).

Lemma ready_tracked s : ready s -> tracked s.
Proof.
  intros (p & P & [[Q F]|[L Y]]); exists p, (rest s); (split; [exact P|]); (split; [apply suf_refl|]); [auto|].
  split; [now left|auto].
Qed.
Lemma ready_init text : ready (init_state text).
Proof. exists []. split; [reflexivity|]. right. split; [reflexivity|constructor]. Qed.
Lemma tracked_same s s' : tracked s -> same s s' -> tracked s'.
Proof.
  intros (p & q & P & S & F & C) (P' & L' & S'). exists p, q. rewrite P', L'. split; [exact P|]. split; [eapply suf_trans; eassumption|auto].
Qed.
Lemma final_app p w : layout p -> final_layout w -> final_layout (p ++ w).
Proof.
  intros L [F|(w' & t & F & N & ->)]; [left; now apply layout_app|]. right. exists (p ++ w'), t. split; [now apply layout_app|].
  split; [exact N|now rewrite <- app_assoc].
Qed.
Section WithEnv.
Context {E : Env}.
Lemma skip_ws_ready s u s' : tracked s -> skip_ws s = Ok u s' -> ready s'.
Proof.
  intros (p & q & P & S & F & C) H. unfold skip_ws in H. unfold bind at 1, modify in H. unfold bind at 1, src in H.
  assert (R0 := track_ws_rest s).
  assert (T1 : exists p', pre_ws (track_ws s) = p' ++ rest s /\ final_layout p' /\ (rest s = [] \/ layout p')).
  { unfold track_ws. destruct C as [->|[L Y]].
    - destruct S as [x S]. apply eq_sym, app_eq_nil in S as [_ S]. rewrite S. rewrite app_nil_r in P.
      assert (G : exists p', pre_ws s = p' ++ [] /\ final_layout p' /\ (@nil char = [] \/ layout p')) by (exists p; rewrite app_nil_r; auto).
      destruct (last_ws s); [|exact G]. destruct (Nat.ltb _ _); [|exact G]. exists []. cbn. split; [reflexivity|]. split; [left; constructor|auto].
    - rewrite L. destruct (Nat.ltb _ _) eqn:Q.
      + exists []. cbn. split; [reflexivity|]. split; [left; constructor|right; constructor].
      + exists p. assert (rest s = q) as <-; [|auto]. apply Nat.ltb_ge in Q. rewrite P, blen_app in Q.
        destruct S as [[|x y] ->]; [reflexivity|]. exfalso. rewrite blen_app in Q. cbn [blen] in Q. pose proof (len_utf8_pos x). lia. }
  destruct T1 as (p' & P1 & F1 & Y1). set (s1 := track_ws s) in *. clearbody s1. rewrite <- R0 in *.
  destruct (rest s1) as [|c l] eqn:HR.
  { injection H as _ <-. exists p'. rewrite HR. split; [exact P1|]. left. auto. }
  destruct Y1 as [Y1|Y1]; [discriminate|]. rewrite <- HR in *.
  unfold bind in H. destruct (ws_loop _ s1) as [b s2|x s2| |] eqn:W; try discriminate.
  assert (K := still_ws_loop s1 (Datatypes.S (length (rest s1))) s1 (same_refl s1)). rewrite W in K. destruct K as (K1 & _ & _).
  apply ws_loop_sound in W as (w & Hw & D). destruct b.
  - injection H as _ <-. destruct D as [D1 D2]. exists (p' ++ w). cbn [pre_ws rest set_last_ws]. split; [now rewrite K1, P1, Hw, <- app_assoc|].
    left. split; [exact D1|now apply final_app].
  - unfold update_last_ws in H. destruct (Nat.leb _ _); [|discriminate]. injection H as _ <-. destruct D as [D1 D2].
    assert (P2 : pre_ws s2 = (p' ++ w) ++ rest s2) by now rewrite K1, P1, Hw, <- app_assoc.
    exists (p' ++ w). cbn [pre_ws rest set_last_ws last_ws]. split; [exact P2|].
    right. split; [f_equal; rewrite P2, blen_app; lia|now apply layout_app].
Qed.

(** ** It is kept *)
Definition keeps {A} (m : M A) : Prop := forall s, tracked s -> match m s with Ok _ s' => tracked s' | _ => True end.
Lemma keeps_ok {A} (m : M A) s a s' : keeps m -> tracked s -> m s = Ok a s' -> tracked s'.
Proof. intros H T Q. specialize (H s T). now rewrite Q in H. Qed.
Lemma keeps_still {A} (m : M A) : (forall s0, still s0 m) -> keeps m.
Proof.
  intros H s T. specialize (H s s (same_refl s)). destruct (m s); auto. eapply tracked_same; eassumption.
Qed.
Lemma keeps_bind {A B} (m : M A) (k : A -> M B) : keeps m -> (forall a, keeps (k a)) -> keeps (bind m k).
Proof. intros H K s T. specialize (H s T). unfold bind. destruct (m s); auto. now apply K. Qed.
Lemma keeps_get {B} (k : st -> M B) : (forall s, keeps (k s)) -> keeps (bind get k).
Proof. intros K s. apply K. Qed.
Lemma keeps_map_err {A} f (m : M A) : keeps m -> keeps (map_err f m).
Proof. intros H s T. specialize (H s T). unfold map_err, try. destruct (m s); cbn; auto. Qed.
Lemma keeps_modify f : (forall s, pre_ws (f s) = pre_ws s /\ last_ws (f s) = last_ws s /\ rest (f s) = rest s) -> keeps (modify f).
Proof. intros H s T. cbn. eapply tracked_same; [exact T|]. destruct (H s) as (P & L & R). split; [exact P|]. split; [exact L|]. rewrite R. apply suf_refl. Qed.
Lemma keeps_guard {A} r (m : M A) : keeps m -> keeps (guard_with r m).
Proof.
  intros H s T. unfold guard_with. destruct (lim s) as [[|l]|]; [exact Logic.I| |exact (H s T)].
  specialize (H (set_lim (Some l) s) T). destruct (m _); auto.
Qed.
Lemma keeps_skip_ws : keeps skip_ws.
Proof. intros s T. destruct (skip_ws s) eqn:Q; auto. eapply ready_tracked, skip_ws_ready; eassumption. Qed.
(** looking ahead *)
Lemma keeps_struct_type u p : keeps (check_struct_type u p).
Proof.
  intros s T. unfold check_struct_type, bind, get_cursor_m. destruct (check_struct_type_inner u p s) as [t s'| | |]; cbn; auto.
Qed.
Create HintDb keeps.
#[local] Hint Resolve keeps_skip_ws keeps_struct_type : keeps.
#[local] Hint Extern 2 (keeps _) => apply keeps_still; intros; solve [auto with still] : keeps.
Ltac ks1 :=
  match goal with
  | |- keeps (bind get _) => apply keeps_get; intros ?
  | |- keeps (bind _ _) => apply keeps_bind; [|intros ?]
  | |- keeps (guard _) => apply keeps_guard
  | |- keeps (guard_r _) => apply keeps_guard
  | |- keeps (map_err _ _) => apply keeps_map_err
  | |- keeps (modify _) => apply keeps_modify; intros; cbn; auto
  | |- _ => solve [auto with keeps]
  | |- keeps (match ?x with _ => _ end) => destruct x
  | |- keeps (let _ := _ in _) => cbv zeta
  end.
Ltac ks := cbv zeta; repeat ks1.
Lemma keeps_comma : keeps comma.
Proof. unfold comma. ks. Qed.
#[local] Hint Resolve keeps_comma : keeps.
Lemma keeps_has_element t h : keeps (has_element t h).
Proof. unfold has_element. ks. Qed.
#[local] Hint Resolve keeps_has_element : keeps.
Lemma keeps_next_element {A} t (m : M A) h : keeps m -> keeps (next_element t m h).
Proof. intros H. unfold next_element. ks. Qed.
#[local] Hint Resolve keeps_next_element : keeps.
Lemma keeps_seq_loop {A} t (m : M A) n : keeps m -> forall h, keeps (seq_loop n t m h).
Proof. intros H. induction n as [|n IH]; intros h; cbn [seq_loop]; ks. Qed.
#[local] Hint Resolve keeps_seq_loop : keeps.
Lemma keeps_seq_all {A} t (m : M A) : keeps m -> keeps (seq_all t m).
Proof. intros H. unfold seq_all. ks. Qed.
#[local] Hint Resolve keeps_seq_all : keeps.
Lemma keeps_tuple (rec : ty -> M val) Ts : (forall U, keeps (rec U)) -> forall i h, keeps (tuple_elems (map rec Ts) i h).
Proof. intros H. induction Ts as [|U Ts IH]; intros i h; cbn [map tuple_elems]; ks. Qed.
Lemma keeps_next_key {A} t (m : M A) h : keeps m -> keeps (next_key t m h).
Proof. intros H. unfold next_key. ks. Qed.
Lemma keeps_next_value {A} (m : M A) : keeps m -> keeps (next_value m).
Proof. intros H. unfold next_value. ks. Qed.
#[local] Hint Resolve keeps_next_key keeps_next_value keeps_tuple : keeps.
Lemma keeps_map_loop {A B} t (k : M A) (v : M B) n : keeps k -> keeps v -> forall h, keeps (map_loop n t k v h).
Proof. intros H V. induction n as [|n IH]; intros h; cbn [map_loop]; ks. Qed.
#[local] Hint Resolve keeps_map_loop : keeps.
Lemma keeps_map_all {A B} t (k : M A) (v : M B) : keeps k -> keeps v -> keeps (map_all t k v).
Proof. intros H V. unfold map_all. ks. Qed.
#[local] Hint Resolve keeps_map_all : keeps.
Lemma keeps_identifier : keeps de_identifier.
Proof. unfold de_identifier. ks. Qed.
#[local] Hint Resolve keeps_identifier : keeps.
Lemma keeps_seq {A} (m : M A) : keeps m -> keeps (de_seq m).
Proof. intros H. unfold de_seq. ks. Qed.
Lemma keeps_de_tuple {A} (m : M A) : keeps m -> keeps (de_tuple m).
Proof. intros H. unfold de_tuple. ks. Qed.
Lemma keeps_map {A} (m : M A) : keeps m -> keeps (de_map m).
Proof. intros H. unfold de_map. ks. Qed.
Lemma keeps_struct {A} n (m : M A) : keeps m -> keeps (struct_after_name n m).
Proof. intros H. unfold struct_after_name. ks. Qed.
Lemma keeps_option {A} (a : A) m : keeps m -> keeps (de_option a m).
Proof. intros H. unfold de_option. ks. Qed.
Lemma keeps_unit : keeps de_unit.
Proof. unfold de_unit. ks. Qed.
#[local] Hint Resolve keeps_seq keeps_de_tuple keeps_map keeps_struct keeps_option keeps_unit : keeps.
Lemma keeps_unit_struct n : keeps (de_unit_struct n).
Proof. unfold de_unit_struct. ks. Qed.
Lemma keeps_newtype {A} n (m : M A) : keeps m -> keeps (de_newtype n m).
Proof. intros H. unfold de_newtype. ks. Qed.
#[local] Hint Resolve keeps_unit_struct keeps_newtype : keeps.
Ltac ks2 :=
  match goal with
  | |- _ => ks1
  | |- keeps (seq_all _ _) => apply keeps_seq_all
  | |- keeps (map_all _ _ _) => apply keeps_map_all
  | |- keeps (de_seq _) => apply keeps_seq
  | |- keeps (de_tuple _) => apply keeps_de_tuple
  | |- keeps (de_map _) => apply keeps_map
  | |- keeps (de_option _ _) => apply keeps_option
  | |- keeps (de_newtype _ _) => apply keeps_newtype
  | |- keeps (struct_after_name _ _) => apply keeps_struct
  end.
Ltac kk := cbv zeta; repeat ks2.
Lemma keeps_bytes : keeps de_bytes.
Proof. unfold de_bytes. kk. Qed.
#[local] Hint Resolve keeps_bytes : keeps.
Lemma keeps_any_number_or_bytes : keeps any_number_or_bytes.
Proof. unfold any_number_or_bytes. kk. Qed.
#[local] Hint Resolve keeps_any_number_or_bytes : keeps.
Lemma keeps_any_main m : keeps m -> keeps (any_main m).
Proof. intros H. unfold any_main. kk. Qed.
#[local] Hint Resolve keeps_any_main : keeps.
Lemma keeps_any f : keeps (de_any f).
Proof. induction f as [|f IH]; cbn [de_any]; kk. Qed.
#[local] Hint Resolve keeps_any : keeps.
Lemma keeps_any_value : keeps any_value.
Proof. unfold any_value. kk. Qed.
#[local] Hint Resolve keeps_any_value : keeps.
Lemma keeps_raw : keeps de_raw.
Proof.
  unfold de_raw, pre_ws_src, has_unclosed_line_comment. intros s T. unfold bind at 1. generalize (pre_ws s) as before. intros before. revert s T.
  apply keeps_bind; [kk|]. intros _. apply keeps_bind; [kk|]. intros _. apply keeps_bind; [kk|]. intros _. apply keeps_bind; [kk|]. intros r.
  apply keeps_bind; [intros s T; exact T|]. intros []; [kk|]. apply keeps_bind; [unfold slice_before; kk|]. intros ron.
  destruct (from_str opts_default any_value ron); kk.
Qed.
#[local] Hint Resolve keeps_raw : keeps.
Section Typed.
Variable tenv : nat -> ty.
Lemma keeps_field_key deny fields : keeps (field_key deny fields).
Proof. unfold field_key. kk. Qed.
#[local] Hint Resolve keeps_field_key : keeps.
Lemma keeps_struct_loop rec deny fields n : (forall U, keeps (rec U)) -> forall acc h, keeps (struct_loop rec deny fields n acc h).
Proof. intros H. induction n as [|n IH]; intros acc h; cbn [struct_loop]; kk. Qed.
#[local] Hint Resolve keeps_struct_loop : keeps.
Lemma keeps_collect is_opt l acc : keeps (collect is_opt l acc).
Proof. induction l as [|[k U] l IH]; cbn [collect]; kk. Qed.
#[local] Hint Resolve keeps_collect : keeps.
Lemma keeps_struct_body rec deny fields is_opt : (forall U, keeps (rec U)) -> keeps (struct_body rec deny fields is_opt).
Proof. intros H. unfold struct_body. kk. Qed.
#[local] Hint Resolve keeps_struct_body : keeps.
Lemma keeps_step rec t : (forall U, keeps (rec U)) -> keeps (de_step tenv rec t).
Proof. intros H. destruct t; cbn [de_step]; kk. Qed.
Theorem keeps_ty f : forall t, keeps (de_ty tenv f t).
Proof. induction f as [|f IH]; intros t; cbn [de_ty]; [kk|]. now apply keeps_step. Qed.
End Typed.

(** ** The document's header *)
Lemma keeps_consume_all l : keeps (consume_all l).
Proof. induction l as [|a l IH]; cbn [consume_all]; ks. Qed.
#[local] Hint Resolve keeps_consume_all : keeps.
Lemma keeps_extension_loop f : forall acc, keeps (extension_loop f acc).
Proof. induction f as [|f IH]; intros acc; cbn [extension_loop]; kk; try apply keeps_still; intros; try (apply still_ident_other); kk. Qed.
#[local] Hint Resolve keeps_extension_loop : keeps.
Lemma keeps_attribute : keeps attribute.
Proof. unfold attribute, extension_list. kk. Qed.
Lemma attr_loop_ready f : forall s u s', ready s -> attr_loop f s = Ok u s' -> ready s'.
Proof.
  induction f as [|f IH]; intros s u s' R H; [discriminate|]. cbn [attr_loop] in H. unfold bind at 1 in H.
  destruct (attribute s) as [a s1| | |] eqn:Q; try discriminate.
  assert (T1 := keeps_ok _ _ _ _ keeps_attribute (ready_tracked _ R) Q). destruct a as [|e|].
  - injection H as _ <-. unfold attribute, bind, check_char, ret in Q. destruct (rest s) as [|c r] eqn:HR.
    + cbn in Q. now injection Q as <-.
    + destruct (c =? c_hash) eqn:C; cbn -[consume_all skip_ws extension_list] in Q; [|now injection Q as <-].
      exfalso. revert Q. repeat (match goal with |- context [match ?m with _ => _ end] => destruct m; try discriminate end).
  - unfold bind, modify in H. destruct (skip_ws _) as [x s2| | |] eqn:W; try discriminate.
    eapply IH; [|exact H]. eapply skip_ws_ready; [|exact W]. exact T1.
  - unfold bind in H. destruct (skip_ws _) as [x s2| | |] eqn:W; try discriminate.
    eapply IH; [|exact H]. eapply skip_ws_ready; [|exact W]. exact T1.
Qed.
Lemma parser_new_ready text u s : parser_new (init_state text) = Ok u s -> ready s.
Proof.
  intros H. unfold parser_new, bind, src in H. destruct (skip_ws _) as [x s1| | |] eqn:W; try discriminate.
  eapply attr_loop_ready; [|exact H]. eapply skip_ws_ready; [|exact W]. apply ready_tracked, ready_init.
Qed.
End WithEnv.
#[export] Hint Resolve keeps_skip_ws keeps_struct_type keeps_comma keeps_has_element keeps_next_element keeps_seq_loop keeps_seq_all
  keeps_next_key keeps_next_value keeps_tuple keeps_map_loop keeps_map_all keeps_identifier keeps_seq keeps_de_tuple keeps_map
  keeps_struct keeps_option keeps_unit keeps_unit_struct keeps_newtype keeps_bytes keeps_any_number_or_bytes keeps_any_main
  keeps_any keeps_any_value keeps_raw keeps_field_key keeps_struct_loop keeps_collect keeps_struct_body : keeps.
#[export] Hint Extern 2 (keeps _) => apply keeps_still; intros; solve [auto with still] : keeps.
Ltac ks1 :=
  match goal with
  | |- keeps (bind get _) => apply keeps_get; intros ?
  | |- keeps (bind _ _) => apply keeps_bind; [|intros ?]
  | |- keeps (guard _) => apply keeps_guard
  | |- keeps (guard_r _) => apply keeps_guard
  | |- keeps (map_err _ _) => apply keeps_map_err
  | |- keeps (modify _) => apply keeps_modify; intros; cbn; auto
  | |- _ => solve [auto with keeps]
  | |- keeps (match ?x with _ => _ end) => destruct x
  | |- keeps (let _ := _ in _) => cbv zeta
  end.
Ltac ks := cbv zeta; repeat ks1.
