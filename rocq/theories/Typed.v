(** Deserialized values belong to their type. *)
From Coq Require Import String Ascii NArith ZArith Lia Bool List.
From Coq Require Import ZifyBool ZifyNat ZifyN.
From Verif Require Import Base Facts Value Data Base64 Parse De Span Ser Wp EnvOk Lit LexSafe DeSafe ValueFacts Typing Layout Attr LexRead DocSafe DocRead LexDoc.
Import ListNotations.
Open Scope N_scope.
Open Scope list_scope.
Open Scope m_scope.

(** ** Result properties: partial correctness from every state that points
    into a well-formed text *)
Definition wfs (s : st) : Prop := exists T, wf_str T /\ inv T s.
Definition gives {A} (m : M A) (P : A -> Prop) : Prop := forall s, wfs s ->
  match m s with Ok a s' => P a /\ wfs s' | _ => True end.
Definition anyp {A} (_ : A) : Prop := True.

Lemma g_weaken {A} (m : M A) (P Q : A -> Prop) : gives m P -> (forall a, P a -> Q a) -> gives m Q.
Proof. intros H W s S. specialize (H s S). destruct (m s); intuition. Qed.
Lemma g_any {A} (m : M A) (P : A -> Prop) : gives m P -> gives m anyp.
Proof. intros H. eapply g_weaken; [exact H|]. now intros. Qed.
Lemma g_bind {A B} (m : M A) (k : A -> M B) P Q :
  gives m P -> (forall a, P a -> gives (k a) Q) -> gives (bind m k) Q.
Proof.
  intros H K s S. unfold bind. specialize (H s S). destruct (m s) as [a s'| | |]; auto.
  destruct H as [X Y]. exact (K a X s' Y).
Qed.
Lemma g_ret {A} (a : A) (P : A -> Prop) : P a -> gives (ret a) P.
Proof. intros H s S. cbn. auto. Qed.
Lemma g_fail {A} e (P : A -> Prop) : gives (fail e) P.
Proof. intros s S. exact Logic.I. Qed.
Lemma g_oof {A} (P : A -> Prop) : gives oof P.
Proof. intros s S. exact Logic.I. Qed.
Lemma g_panic {A} (P : A -> Prop) : gives panic P.
Proof. intros s S. exact Logic.I. Qed.
Lemma g_total {A} (m : M A) : total m -> gives m anyp.
Proof.
  intros H s (T & W & J). specialize (H T s J). Transparent wp. unfold wp in H. Opaque wp.
  destruct (m s) as [a s'|e s'| |]; try tauto.
  split; [exact Logic.I|]. exists T. split; [assumption|]. now apply adv_inv in H.
Qed.
Lemma wfs_rest s : wfs s -> wf_str (rest s).
Proof. intros (T & W & J). apply inv_rest in J as [p ->]. now apply wf_app in W. Qed.
Lemma g_src : gives src wf_str.
Proof. intros s S. cbn. split; [now apply wfs_rest|assumption]. Qed.
Lemma g_get : gives get anyp.
Proof. apply g_total, total_get. Qed.
Lemma g_modify f : (forall T s, inv T s -> inv T (f s)) -> gives (modify f) anyp.
Proof. intros H s (T & W & J). cbn. split; [exact Logic.I|]. exists T. auto. Qed.
Lemma g_map_err {A} f (m : M A) P : gives m P -> gives (map_err f m) P.
Proof.
  intros H s S. unfold map_err, try, ret, fail. specialize (H s S). now destruct (m s).
Qed.
Lemma g_then_fail {A B} (m : M A) (e : A -> err) (P : B -> Prop) : gives (a <- m ;; fail (e a)) P.
Proof. intros s S. unfold bind, fail. now destruct (m s). Qed.
Lemma inv_set_lim T l s : inv T s -> inv T (set_lim l s).
Proof. unfold inv. cbn. auto. Qed.
Lemma wfs_set_lim l s : wfs s -> wfs (set_lim l s).
Proof. intros (T & W & J). exists T. auto using inv_set_lim. Qed.
Lemma g_guard_with {A} r (m : M A) P : gives m P -> gives (guard_with r m) P.
Proof.
  intros H s S. unfold guard_with. destruct (lim s) as [[|l]|].
  - exact Logic.I.
  - specialize (H _ (wfs_set_lim (Some l) _ S)). destruct (m _) as [a s'|e s'| |]; auto.
  - exact (H s S).
Qed.
Lemma g_of_slice {A} (o : option A) (P : A -> Prop) : (forall a, o = Some a -> P a) -> gives (of_slice o) P.
Proof. intros H s S. unfold of_slice. destruct o; cbn; auto. Qed.

Lemma btake_wf n s t : wf_str s -> btake n s = Some t -> wf_str t.
Proof.
  revert n t; induction s as [|c s IH]; intros [|n] t W H; cbn [btake] in H; try discriminate.
  1,2: injection H as <-; constructor.
  destruct (Nat.leb _ _); [|discriminate]. destruct (btake _ s) eqn:X; [|discriminate].
  cbn in H. injection H as <-. inversion W; subst. constructor; [assumption|]. eapply IH; [|exact X]; assumption.
Qed.
Lemma bdrop_wf n s t : wf_str s -> bdrop n s = Some t -> wf_str t.
Proof.
  revert n t; induction s as [|c s IH]; intros [|n] t W H; cbn [bdrop] in H; try discriminate.
  1,2: injection H as <-; assumption.
  destruct (Nat.leb _ _); [|discriminate]. inversion W; subst. eauto.
Qed.

(** ** Results that do not depend on the text *)
Definition yields {A} (m : M A) (P : A -> Prop) : Prop := forall s a s', m s = Ok a s' -> P a.
Lemma y_bind {A B} (m : M A) (k : A -> M B) P Q :
  yields m P -> (forall a, P a -> yields (k a) Q) -> yields (bind m k) Q.
Proof.
  intros H K s b s2. unfold bind. destruct (m s) as [a s1| | |] eqn:X; try discriminate.
  apply K. exact (H _ _ _ X).
Qed.
Lemma y_any {A} (m : M A) : yields m anyp.
Proof. now intros s a s' _. Qed.
Lemma y_then {A B} (m : M A) (k : A -> M B) Q : (forall a, yields (k a) Q) -> yields (bind m k) Q.
Proof. intros K. eapply y_bind; [apply y_any|auto]. Qed.
Lemma y_ret {A} (a : A) (P : A -> Prop) : P a -> yields (ret a) P.
Proof. intros H s b s' X. injection X as <- <-. assumption. Qed.
Lemma y_fail {A} e (P : A -> Prop) : yields (fail e) P.
Proof. intros s a s'. discriminate. Qed.
Lemma y_panic {A} (P : A -> Prop) : yields panic P.
Proof. intros s a s'. discriminate. Qed.
Lemma y_try {A B} (m : M A) (k : A -> M B) h P Q :
  yields m P -> (forall a, P a -> yields (k a) Q) -> (forall e, yields (h e) Q) -> yields (try m k h) Q.
Proof.
  intros H K J s b s2. unfold try. destruct (m s) as [a s1|e s1| |] eqn:X; try discriminate.
  - apply K. exact (H _ _ _ X). - apply J.
Qed.
Lemma y_weaken {A} (m : M A) (P Q : A -> Prop) : yields m P -> (forall a, P a -> Q a) -> yields m Q.
Proof. intros H K s a s' X. apply K. exact (H _ _ _ X). Qed.
Lemma g_yields {A} (m : M A) P : total m -> yields m P -> gives m P.
Proof.
  intros H Y s S. generalize (g_total _ H s S). destruct (m s) as [a s'| | |] eqn:X; auto.
  intros [_ ?]. split; [exact (Y _ _ _ X)|assumption].
Qed.

(** [fok] holds of every float the library functions return *)
Class FloatIn {E : Env} (fok : fk -> N -> Prop) : Prop := {
  in_read : forall k s b, f_read k s = Some b -> fok k b;
  in_narrow : forall b, fok F64 b -> fok F32 (f_narrow b);
  in_widen : forall b, fok F32 b -> fok F64 (f_widen b);
  in_of_int : forall k z, fok k (f_of_int k z);
  in_special : forall k, fok k (f_inf k) /\ fok k (f_nan k) /\
    fok k (f_inf k + f_signbit k) /\ fok k (f_nan k + f_signbit k);
}.

Section WithEnv.
Context {E : Env} {fok : fk -> N -> Prop} {F : FloatIn fok}.

Definition scalar (c : char) : Prop := is_scalar c = true.
Definition int_ok (p : ik * Z) : Prop := in_range (fst p) (snd p) = true.
Definition float_ok (p : fk * N) : Prop := fok (fst p) (snd p).

Lemma g_next_char : gives next_char scalar.
Proof.
  intros s S. generalize (g_total _ total_next_char s S). unfold next_char.
  assert (W := wfs_rest _ S). destruct (rest s) as [|c r]; [auto|]. inversion W; subst. now intros [_ ?].
Qed.
Lemma g_peek : gives peek_char_or_eof scalar.
Proof.
  intros s S. unfold peek_char_or_eof.
  assert (W := wfs_rest _ S). destruct (rest s) as [|c r]; [auto|]. inversion W; subst. auto.
Qed.
Lemma some_inj {A} (a b : A) : Some a = Some b -> a = b.
Proof. congruence. Qed.
Lemma y_decode_hex c : yields (decode_hex c) (fun d => d < 16).
Proof.
  unfold decode_hex. destruct (hex_val c) as [d|] eqn:X; [|apply y_fail]. apply y_ret. unfold hex_val, is_digit in X.
  repeat match type of X with (if ?b then _ else _) = _ => destruct b eqn:? end; try discriminate;
  apply some_inj in X; subst d; lia.
Qed.
Lemma y_decode_ascii : yields decode_ascii_escape (fun b => b < 256).
Proof.
  unfold decode_ascii_escape. apply y_then. intros a.
  eapply y_bind; [apply y_decode_hex|intros ? ?]. apply y_then. intros b.
  eapply y_bind; [apply y_decode_hex|intros ? ?]. apply y_ret. cbn in *. lia.
Qed.
Definition esc_ok (e : escape) : Prop := match e with EscAscii b => b < 256 | EscUtf8 c => scalar c end.
Lemma from_utf8_head bs c s : from_utf8 bs = Some (c :: s) -> scalar c.
Proof. intros H. apply from_utf8_spec in H as [W _]. now inversion W. Qed.
Lemma y_escape_more n acc : yields (escape_more n acc) esc_ok.
Proof.
  revert acc. induction n; intros acc; cbn [escape_more]; [apply y_fail|].
  apply y_then. intros []; [|apply y_fail]. apply y_then. intros x. cbn zeta.
  destruct (from_utf8 _) as [[|c s]|] eqn:X; auto.
  apply y_ret. exact (from_utf8_head _ _ _ X).
Qed.
Lemma y_parse_escape b c : yields (parse_escape b c) esc_ok.
Proof.
  unfold parse_escape. apply y_then. intros e.
  do 7 (match goal with |- yields (if ?x then _ else _) _ => destruct x; [apply y_ret; now cbn|] end).
  destruct (e =? 120).
  { eapply y_bind; [apply y_decode_ascii|intros x ?]. destruct b; [now apply y_ret|].
    destruct (from_utf8 _) as [[|d s]|] eqn:X.
    1,3: destruct c; [apply y_fail|apply y_escape_more].
    apply y_ret. exact (from_utf8_head _ _ _ X). }
  destruct (e =? 117); [|apply y_fail].
  apply y_then. intros _. apply y_then. intros [n v].
  destruct (Nat.eqb n 0); [apply y_fail|]. apply y_then. intros _.
  destruct (is_scalar v) eqn:X; [now apply y_ret|apply y_fail].
Qed.
Lemma byte_scalar b : b < 256 -> scalar b.
Proof. unfold scalar, is_scalar. lia. Qed.
Lemma g_parse_char : gives parse_char scalar.
Proof.
  unfold parse_char. eapply g_bind; [apply g_total, total_expect_char|intros _ _].
  eapply g_bind; [apply g_next_char|intros c ?].
  eapply g_bind with (P := scalar).
  - destruct (c =? c_bs); [|now apply g_ret].
    eapply g_bind; [apply g_yields; [apply total_parse_escape|apply y_parse_escape]|intros [] X]; apply g_ret; [now apply byte_scalar|exact X].
  - intros d ?. eapply g_bind; [apply g_total, total_expect_char|intros _ _]. now apply g_ret.
Qed.
Lemma g_advance n : gives (advance_bytes n) anyp.
Proof.
  intros s (T & W & J). unfold advance_bytes. destruct (bdrop n (rest s)) as [r|] eqn:X; [|exact Logic.I].
  split; [exact Logic.I|]. exists T. split; [assumption|]. apply inv_moved; [assumption|]. now apply suf_bdrop in X.
Qed.
Lemma g_while_from n p : gives (next_chars_while_from_len n p) anyp.
Proof.
  unfold next_chars_while_from_len. eapply g_bind; [apply g_src|intros r _].
  eapply g_bind; [apply g_of_slice with (P := anyp); now intros|intros t _]. now apply g_ret.
Qed.
Lemma g_while p : gives (next_chars_while_len p) anyp.
Proof. apply g_while_from. Qed.
Lemma g_identifier : gives identifier wf_str.
Proof.
  unfold identifier.
  eapply g_bind; [apply g_peek|intros c _]. eapply g_bind; [apply g_src|intros r _].
  destruct (negb _).
  { destruct (is_ident_raw_char c); [|apply g_fail]. eapply g_bind; [apply g_while|intros n _]. refine (g_then_fail _ _ _). }
  destruct (starts_string_literal r); [apply g_fail|].
  eapply g_bind with (P := anyp).
  - destruct (starts_with s_rh r).
    + eapply g_bind; [apply g_total, total_get_cursor|intros cur _]. eapply g_bind; [apply g_advance|intros _ _].
      eapply g_bind; [apply g_total, total_peek_char|intros [d|] _]; [|refine (g_then_fail _ _ _)].
      destruct (is_ident_raw_char d); [apply g_while|refine (g_then_fail _ _ _)].
    + eapply g_bind with (P := anyp).
      * destruct (c =? c_r); [apply g_while|]. eapply g_bind; [apply g_while_from|intros; now apply g_ret].
      * intros std _. eapply g_bind; [apply g_while|intros raw _].
        destruct (Nat.ltb std raw); [refine (g_then_fail _ _ _)|now apply g_ret].
  - intros len _. eapply g_bind; [apply g_src|intros r' W].
    eapply g_bind; [apply g_of_slice with (P := wf_str); intros a X; exact (btake_wf _ _ _ W X)|intros id Wi].
    eapply g_bind; [apply g_advance|intros _ _]. now apply g_ret.
Qed.

Lemma y_int_digits k base neg whole i ds acc : in_range k acc = true ->
  yields (int_digits k base neg whole i ds acc) (fun z => in_range k z = true).
Proof.
  revert i acc. induction ds as [|c ds IH]; intros i acc R; cbn [int_digits].
  - apply y_then. intros _. now apply y_ret.
  - destruct (c =? c_us); [auto|].
    destruct (in_range k (acc * base)); cbn [negb]; [|apply y_then; intros; apply y_fail].
    apply y_then. intros d. destruct (base <=? Z.of_N d)%Z; [apply y_then; intros; apply y_fail|]. cbn zeta.
    destruct (in_range k (if neg then _ else _)) eqn:X; cbn [negb]; [auto|apply y_then; intros; apply y_fail].
Qed.
Lemma in_range_0 k : in_range k 0 = true.
Proof. destruct k; reflexivity. Qed.
Lemma y_parse_integer k neg base : yields (parse_integer k neg base) (fun z => in_range k z = true).
Proof.
  unfold parse_integer. apply y_then. intros n. destruct (Nat.eqb n 0); [apply y_fail|].
  apply y_then. intros []; [apply y_fail|]. apply y_then. intros r. apply y_then. intros s.
  apply y_int_digits, in_range_0.
Qed.
Lemma narrow_signed_ok z : in_range large_sint z = true -> in_range (narrow_signed z) z = true.
Proof. unfold narrow_signed, large_sint. destruct int128; intros H; repeat (match goal with |- in_range (if ?b then _ else _) _ = true => destruct b eqn:? end; auto). Qed.
Lemma narrow_unsigned_ok z : in_range large_uint z = true -> in_range (narrow_unsigned z) z = true.
Proof. unfold narrow_unsigned, large_uint. destruct int128; intros H; repeat (match goal with |- in_range (if ?b then _ else _) _ = true => destruct b eqn:? end; auto). Qed.
Definition int_of (t : option ik) (p : ik * Z) : Prop := int_ok p /\ forall k, t = Some k -> fst p = k.
Lemma y_int_parse t neg base : yields (int_parse t neg base) (int_of t).
Proof.
  destruct t as [k|]; cbn [int_parse].
  - eapply y_bind; [apply y_parse_integer|intros z Z]. apply y_ret. split; [exact Z|]. now injection 1.
  - destruct neg; (eapply y_bind; [apply y_parse_integer|intros z Z]; apply y_ret; split; [|discriminate]).
    + now apply narrow_signed_ok. + now apply narrow_unsigned_ok.
Qed.
Lemma y_try_from t p : int_ok p -> yields (try_from_parsed_integer t p) (int_of t).
Proof.
  intros H. destruct t as [k|]; cbn [try_from_parsed_integer]; [|apply y_ret; split; [assumption|discriminate]].
  destruct (ik_eqb k (fst p)) eqn:X; [|apply y_fail]. apply ik_eqb_eq in X. apply y_ret. split; [assumption|].
  intros k0 K0. congruence.
Qed.
Lemma y_integer_body t neg base backup : yields (integer_body t neg base backup) (int_of t).
Proof.
  unfold integer_body. apply y_then. intros n. apply y_then. intros r. apply y_then. intros [|c t']; [apply y_int_parse|].
  destruct ((c =? 105) || (c =? 117)); [|apply y_int_parse].
  do 3 (apply y_then; intros ?). destruct a1; [|apply y_then; intros; apply y_int_parse].
  do 2 (apply y_then; intros ?). eapply y_try; [apply y_parse_integer| |].
  - intros z Z. do 2 (apply y_then; intros ?). now apply y_try_from.
  - intros e. destruct e; repeat (apply y_then; intros ?); apply y_fail.
Qed.
Lemma y_byte_literal t backup : yields (byte_literal t backup) (int_of t).
Proof.
  unfold byte_literal. apply y_then. intros c.
  eapply y_bind with (P := fun b => b < 256).
  - destruct (c =? c_bs).
    + eapply y_bind; [apply y_parse_escape|intros [] B]; [now apply y_ret|apply y_fail].
    + destruct (c <? 128) eqn:L; [apply y_ret; lia|apply y_fail].
  - intros b B. apply y_then. intros []; [|apply y_fail].
    apply y_then. intros r. apply y_then. intros _. apply y_try_from.
    unfold int_ok. cbn [fst snd]. unfold in_range. cbn. lia.
Qed.
Lemma y_integer t : yields (integer t) (int_of t).
Proof.
  unfold integer. apply y_then. intros r. apply y_then. intros c. cbn zeta.
  assert (Y : forall neg, yields (b <- consume_str s_0b ;;
    if b then integer_body t neg 2 r else
    o <- consume_str s_0o ;;
    if o then integer_body t neg 8 r else
    x <- consume_str s_0x ;;
    if x then integer_body t neg 16 r else
    integer_body t neg 10 r) (int_of t)).
  { intros neg. repeat (apply y_then; intros []; [apply y_integer_body|]). apply y_integer_body. }
  destruct (c =? c_plus); [apply y_then; intros; apply Y|].
  destruct (c =? c_minus); [apply y_then; intros; apply Y|].
  destruct (c =? c_b); [|apply Y]. apply y_then. intros []; [apply y_byte_literal|apply Y].
Qed.

Definition float_of (t : option fk) (p : fk * N) : Prop := float_ok p /\ forall k, t = Some k -> fst p = k.
Lemma y_float_parse t s : yields (float_parse t s) (float_of t).
Proof.
  destruct t as [k|]; cbn [float_parse].
  - destruct (f_read k s) as [b|] eqn:X; [|apply y_fail]. apply y_ret. split; [exact (in_read _ _ _ X)|]. now injection 1.
  - destruct (f_read F64 s) as [b|] eqn:X; [|apply y_fail]. apply in_read in X.
    destruct (b =? _); apply y_ret; (split; [|discriminate]); [now apply in_narrow|assumption].
Qed.
Lemma y_try_from_float t p : float_ok p -> yields (try_from_parsed_float t p) (float_of t).
Proof.
  intros H. destruct t as [k|]; cbn [try_from_parsed_float]; [|apply y_ret; split; [assumption|discriminate]].
  destruct (fk_eqb k (fst p)) eqn:X; [|apply y_fail]. apply fk_eqb_eq in X. apply y_ret. split; [assumption|].
  intros k0 K0. congruence.
Qed.
Definition opt_float (t : option fk) (o : option (fk * N)) : Prop := match o with Some p => float_of t p | None => True end.
Lemma y_float_lits t l : Forall (fun x => fok F32 (snd (fst x)) /\ fok F64 (snd x)) l -> yields (float_lits t l) (opt_float t).
Proof.
  induction 1 as [|[[w a] b] l [HA HB] _ IH]; cbn [float_lits]; [now apply y_ret|].
  apply y_then. intros [].
  - eapply y_bind; [apply y_float_parse|intros x ?]. now apply y_ret.
  - apply y_then. intros r. destruct (strip_prefix w r) as [sfx|]; [|exact IH]. cbn zeta.
    assert (Y : forall k v next, fok k v -> yields next (opt_float t) ->
      yields (match strip_prefix (match k with F32 => s_f32 | F64 => s_f64 end) sfx with
              | Some post =>
                  if next_is_xid_continue post then next
                  else
                    of_slice (btake (blen w + 3) r) ;;;
                    advance_bytes (blen w + 3) ;;;
                    x <- try_from_parsed_float t (k, v) ;;
                    ret (Some x)
              | None => next
              end) (opt_float t)).
    { intros k v next V N. destruct (strip_prefix _ sfx) as [post|]; [|exact N].
      destruct (next_is_xid_continue post); [exact N|]. apply y_then. intros _. apply y_then. intros _.
      eapply y_bind; [apply y_try_from_float; exact V|intros x ?]. now apply y_ret. }
    apply (Y F32); [exact HA|]. apply (Y F64); [exact HB|]. exact IH.
Qed.
Lemma y_float t : yields (float t) (float_of t).
Proof.
  unfold float. eapply y_bind.
  { apply y_float_lits. pose proof (in_special F32). pose proof (in_special F64).
    repeat constructor; cbn [fst snd]; tauto. }
  intros [x|] L; [now apply y_ret|]. apply y_then. intros raw. apply y_then. intros r. apply y_then. intros s. cbn zeta.
  destruct (Nat.eqb _ 0); [apply y_fail|]. apply y_then. intros []; [apply y_fail|]. apply y_then. intros w.
  destruct (float_chars 0 false w) as [f|i]; [|apply y_then; intros; apply y_fail].
  apply y_then. intros t'.
  assert (P : yields (v <- float_parse t f ;; advance_bytes (dotdot_len s) ;;; ret v) (float_of t)).
  { eapply y_bind; [apply y_float_parse|intros v V]. apply y_then. intros _. now apply y_ret. }
  destruct t' as [|c t']; [exact P|]. destruct (c =? 102); [|exact P].
  apply y_then. intros cur. apply y_then. intros _.
  assert (FN : forall k, yields (match f_read k f with
                      | None => set_cursor_m cur ;;; fail EExpectedFloat
                      | Some v =>
                          after <- src ;;
                          slice_before r after ;;;
                          try_from_parsed_float t (k, v)
                      end) (float_of t)).
  { intros k. destruct (f_read k f) as [v|] eqn:R; [|apply y_then; intros; apply y_fail].
    apply y_then. intros after. apply y_then. intros _. apply y_try_from_float. exact (in_read _ _ _ R). }
  apply y_then. intros []; [apply FN|]. apply y_then. intros []; [apply FN|]. apply y_then. intros _. exact P.
Qed.
Lemma y_any_number : yields any_number (num_ok fok).
Proof.
  pose proof (in_special F32). pose proof (in_special F64).
  unfold any_number. repeat (apply y_then; intros []; [apply y_ret; cbn; tauto|]).
  apply y_then. intros [].
  - eapply y_bind; [apply y_float|intros [k b] [X _]]. apply y_ret. exact X.
  - apply y_then. intros cur. eapply y_try; [apply y_integer| |].
    + intros [k z] [X _]. apply y_ret. exact X.
    + intros e. do 2 (apply y_then; intros ?). cbn zeta. eapply y_try; [apply y_float| |].
      * intros [k b] [X _]. apply y_then. intros r. destruct (Nat.leb _ _); [apply y_ret; exact X|].
        apply y_then. intros; apply y_fail.
      * intros. apply y_then. intros; apply y_fail.
Qed.

(** ** Strings and byte strings *)
Lemma y_finish_string m : yields (finish_string m) wf_str.
Proof.
  unfold finish_string. apply y_then. intros p. destruct (from_utf8 (fst p)) as [s|] eqn:X; [|apply y_fail].
  apply y_then. intros _. apply y_ret. now apply from_utf8_spec in X.
Qed.
Lemma y_parse_string : yields parse_string wf_str.
Proof.
  unfold parse_string. apply y_then. intros []; [apply y_finish_string|].
  apply y_then. intros []; [apply y_finish_string|apply y_fail].
Qed.
Definition bytes_ok : bytes -> Prop := Forall byte_ok.
Lemma enc_char_bytes c : scalar c -> bytes_ok (enc_char c).
Proof.
  intros H. assert (L := scalar_bound _ H). unfold enc_char, bytes_ok, byte_ok.
  destruct (c <? 128) eqn:A1; [repeat constructor; lia|].
  destruct (c <? 2048) eqn:A2; [repeat constructor; lia|].
  destruct (c <? 65536) eqn:A3; repeat constructor; lia.
Qed.
Lemma enc_bytes s : wf_str s -> bytes_ok (enc s).
Proof.
  induction 1 as [|c s H _ IH]; [constructor|]. apply Forall_app. split; [now apply enc_char_bytes|exact IH].
Qed.
Lemma find_char_wf p s a b : wf_str s -> find_char p s = Some (a, b) -> wf_str a.
Proof. intros W H. apply find_char_some in H as [-> _]. now apply wf_app in W. Qed.
Definition buf_ok (p : bytes * nat) : Prop := bytes_ok (fst p).
Lemma g_escape b c : gives (parse_escape b c) esc_ok.
Proof. apply g_yields; [apply total_parse_escape|apply y_parse_escape]. Qed.
Lemma g_escaped_loop fuel b i acc : bytes_ok acc -> gives (escaped_loop fuel b i acc) buf_ok.
Proof.
  revert i acc; induction fuel as [|f IH]; intros i acc B; cbn [escaped_loop]; [apply g_oof|].
  eapply g_bind; [apply g_advance|intros _ _]. eapply g_bind; [apply g_escape|intros e Eo]. cbn zeta.
  eapply g_bind; [apply g_src|intros r W].
  destruct (find_char _ r) as [[pre post]|] eqn:X; [|apply g_fail].
  assert (B2 : bytes_ok ((acc ++ match e with EscAscii b => [b] | EscUtf8 c => enc_char c end) ++ enc pre)).
  { apply Forall_app. split; [apply Forall_app; split; [exact B|]|apply enc_bytes, (find_char_wf _ _ _ _ W X)].
    destruct e; [constructor; [exact Eo|constructor]|now apply enc_char_bytes]. }
  destruct post as [|c post]; [apply g_panic|]. destruct (c =? c_bs); [now apply IH|now apply g_ret].
Qed.
Lemma g_escaped_buf b : gives (escaped_byte_buf b) buf_ok.
Proof.
  unfold escaped_byte_buf. eapply g_bind; [apply g_src|intros r W].
  destruct (find_char _ r) as [[pre post]|] eqn:X; [|apply g_fail]. assert (Wp := find_char_wf _ _ _ _ W X).
  destruct (find_char _ pre) as [[pre' post']|] eqn:Y.
  - apply g_escaped_loop, enc_bytes. exact (find_char_wf _ _ _ _ Wp Y).
  - apply g_ret. now apply enc_bytes.
Qed.
Lemma g_raw_buf : gives raw_byte_buf buf_ok.
Proof.
  unfold raw_byte_buf. eapply g_bind; [apply g_while|intros n _]. eapply g_bind; [apply g_src|intros r _].
  eapply g_bind; [apply g_of_slice with (P := anyp); now intros|intros h _].
  eapply g_bind; [apply g_advance|intros _ _]. eapply g_bind; [apply g_total, total_expect_char|intros _ _].
  eapply g_bind; [apply g_src|intros r' W]. destruct (find_str _ r') as [[pre post]|] eqn:X; [|apply g_fail].
  apply g_ret. apply enc_bytes. apply find_str_some in X as [-> _]. now apply wf_app in W.
Qed.
Lemma g_finish_bytes m : gives m buf_ok -> gives (finish_bytes m) bytes_ok.
Proof.
  intros H. unfold finish_bytes. eapply g_bind; [exact H|intros p B]. eapply g_bind; [apply g_advance|intros _ _].
  now apply g_ret.
Qed.
Lemma g_bytes_no64 : gives byte_string_no_base64 bytes_ok.
Proof.
  unfold byte_string_no_base64. eapply g_bind; [apply g_total, total_consume_str|intros [] _].
  - apply g_finish_bytes, g_escaped_buf.
  - eapply g_bind; [apply g_total, total_consume_str|intros [] _]; [|apply g_fail].
    apply g_map_err, g_finish_bytes, g_raw_buf.
Qed.
Lemma g_string : gives parse_string wf_str.
Proof. apply g_yields; [apply total_parse_string|apply y_parse_string]. Qed.
Lemma g_byte_string : gives byte_string bytes_ok.
Proof.
  unfold byte_string.
  assert (N : forall m : M str, gives (s <- m ;; base64_error s) bytes_ok).
  { intros m s S. unfold bind, base64_error, fail. destruct (m s); auto. now destruct (try_decode_base64 _). }
  eapply g_bind; [apply g_total, total_consume_char|intros [] _]; [apply N|].
  eapply g_bind; [apply g_total, total_consume_char|intros [] _]; [apply N|]. apply g_bytes_no64.
Qed.

(** ** Separated elements *)
Lemma g_has_element t h : gives (has_element t h) anyp.
Proof. apply g_total, total_has_element. Qed.
Lemma g_ws : gives skip_ws anyp.
Proof. apply g_total, total_skip_ws. Qed.
Lemma g_comma : gives comma anyp.
Proof. apply g_total, total_comma. Qed.
Lemma g_consume c : gives (consume_char c) anyp.
Proof. apply g_total, total_consume_char. Qed.
Lemma g_nt b : gives (modify (set_nt b)) anyp.
Proof. apply g_modify. intros T s. unfold inv. now cbn. Qed.
Lemma g_next_element {A} t (m : M A) h (P : A -> Prop) : gives m P ->
  gives (next_element t m h) (fun p => match fst p with Some a => P a | None => True end).
Proof.
  intros H. unfold next_element. eapply g_bind; [apply g_has_element|intros [] _]; [|now apply g_ret].
  eapply g_bind; [apply g_guard_with; exact H|intros v V].
  eapply g_bind; [apply g_comma|intros c _]. now apply g_ret.
Qed.
Lemma g_seq_loop {A} n t (m : M A) h (P : A -> Prop) : gives m P -> gives (seq_loop n t m h) (Forall P).
Proof.
  intros H. revert h; induction n as [|n IH]; intros h; cbn [seq_loop]; [apply g_oof|].
  eapply g_bind; [apply g_next_element; exact H|intros [[a|] c] X]; [|now apply g_ret].
  eapply g_bind; [apply IH|intros l L]. apply g_ret. now constructor.
Qed.
Lemma g_seq_all {A} t (m : M A) (P : A -> Prop) : gives m P -> gives (seq_all t m) (Forall P).
Proof. intros H. unfold seq_all. eapply g_bind; [apply g_src|intros r _]. now apply g_seq_loop. Qed.
Lemma g_tuple_elems {A} (Ps : list (A -> Prop)) ms : Forall2 gives ms Ps ->
  forall i h, gives (tuple_elems ms i h) (Forall2 (fun P a => P a) Ps).
Proof.
  induction 1 as [|m P ms Ps H _ IH]; intros i h; cbn [tuple_elems]; [now apply g_ret|].
  eapply g_bind; [apply g_next_element; exact H|intros [[a|] c] X]; [|apply g_fail].
  eapply g_bind; [apply IH|intros l L]. apply g_ret. now constructor.
Qed.
Lemma g_next_key {A} t (m : M A) h (P : A -> Prop) : gives m P ->
  gives (next_key t m h) (fun o => match o with Some a => P a | None => True end).
Proof.
  intros H. unfold next_key. eapply g_bind; [apply g_has_element|intros [] _]; [|now apply g_ret].
  eapply g_bind; [apply g_guard_with; exact H|intros v V]. now apply g_ret.
Qed.
Lemma g_next_value {A} (m : M A) (P : A -> Prop) : gives m P -> gives (next_value m) (fun p => P (fst p)).
Proof.
  intros H. unfold next_value. eapply g_bind; [apply g_ws|intros _ _].
  eapply g_bind; [apply g_consume|intros [] _]; [|apply g_fail].
  eapply g_bind; [apply g_ws|intros _ _]. eapply g_bind; [apply g_guard_with; exact H|intros v V].
  eapply g_bind; [apply g_comma|intros c _]. now apply g_ret.
Qed.
Lemma g_map_loop {A B} n t (k : M A) (v : M B) h (P : A -> Prop) (Q : B -> Prop) : gives k P -> gives v Q ->
  gives (map_loop n t k v h) (Forall (fun kv => P (fst kv) /\ Q (snd kv))).
Proof.
  intros HK HV. revert h; induction n as [|n IH]; intros h; cbn [map_loop]; [apply g_oof|].
  eapply g_bind; [apply g_next_key; exact HK|intros [a|] X]; [|now apply g_ret].
  eapply g_bind; [apply g_next_value; exact HV|intros [b c] Y].
  eapply g_bind; [apply IH|intros l L]. apply g_ret. now constructor.
Qed.
Lemma g_map_all {A B} t (k : M A) (v : M B) (P : A -> Prop) (Q : B -> Prop) : gives k P -> gives v Q ->
  gives (map_all t k v) (Forall (fun kv => P (fst kv) /\ Q (snd kv))).
Proof. intros HK HV. unfold map_all. eapply g_bind; [apply g_src|intros r _]. now apply g_map_loop. Qed.
Lemma g_de_identifier : gives de_identifier wf_str.
Proof.
  unfold de_identifier. eapply g_bind; [apply g_identifier|intros id W].
  eapply g_bind; [apply g_modify; intros T s; unfold inv; now cbn|intros _ _]. now apply g_ret.
Qed.
Lemma g_close {A} (b : bool) c e (v : A) (P : A -> Prop) : P v ->
  gives (skip_ws ;;; c <- (if b then ret true else consume_char c) ;; if c then ret v else fail e) P.
Proof.
  intros H. eapply g_bind; [apply g_ws|intros _ _]. eapply g_bind with (P := anyp).
  - destruct b; [now apply g_ret|apply g_consume].
  - intros [] _; [now apply g_ret|apply g_fail].
Qed.
Lemma g_de_seq {A} (m : M A) P : gives m P -> gives (de_seq m) P.
Proof.
  intros H. unfold de_seq. eapply g_bind; [apply g_nt|intros _ _].
  eapply g_bind; [apply g_consume|intros [] _]; [|apply g_fail].
  eapply g_bind; [apply g_guard_with; exact H|intros v V]. now apply (g_close false).
Qed.
Lemma g_de_map {A} (m : M A) P : gives m P -> gives (de_map m) P.
Proof.
  intros H. unfold de_map. eapply g_bind; [apply g_nt|intros _ _].
  eapply g_bind; [apply g_consume|intros [] _]; [|apply g_fail].
  eapply g_bind; [apply g_guard_with; exact H|intros v V]. now apply (g_close false).
Qed.
Lemma g_de_tuple {A} (m : M A) P : gives m P -> gives (de_tuple m) P.
Proof.
  intros H. unfold de_tuple. eapply g_bind; [apply g_get|intros s _]. eapply g_bind with (P := anyp).
  { destruct (nt s); [now apply g_ret|apply g_consume]. }
  intros [] _; [|apply g_fail]. eapply g_bind; [apply g_nt|intros _ _].
  eapply g_bind; [apply g_guard_with; exact H|intros v V]. now apply (g_close (nt s)).
Qed.
Lemma g_struct_after {A} name (m : M A) P : gives m P -> gives (struct_after_name name m) P.
Proof.
  intros H. unfold struct_after_name. eapply g_bind; [apply g_get|intros s _]. eapply g_bind with (P := anyp).
  { destruct (nt s); [now apply g_ret|apply g_consume]. }
  intros [] _; [|destruct name; apply g_fail]. eapply g_bind; [apply g_nt|intros _ _].
  eapply g_bind; [apply g_guard_with, g_map_err; exact H|intros v V]. now apply (g_close (nt s)).
Qed.
Lemma g_ident w : gives (consume_ident w) anyp.
Proof. apply g_total, total_consume_ident. Qed.
Lemma g_comma_close {A} c e (v : A) (P : A -> Prop) : P v ->
  gives (comma ;;; c <- consume_char c ;; if c then ret v else fail e) P.
Proof.
  intros H. eapply g_bind; [apply g_comma|intros _ _].
  eapply g_bind; [apply g_consume|intros [] _]; [now apply g_ret|apply g_fail].
Qed.
Lemma g_set_nt_ext : gives (modify (fun s => set_nt (x_unwrap_variant_newtypes (ext s)) s)) anyp.
Proof. apply g_modify. intros T s. unfold inv. now cbn. Qed.
Lemma g_de_option {A} (none : A) (m : M A) (P : A -> Prop) : P none -> gives m P -> gives (de_option none m) P.
Proof.
  intros N H. unfold de_option. eapply g_bind; [apply g_ident|intros [] _]; [now apply g_ret|].
  eapply g_bind; [apply g_ident|intros sm _]. eapply g_bind with (P := anyp).
  { destruct sm; [|now apply g_ret]. eapply g_bind; [apply g_ws|intros _ _]. apply g_consume. }
  intros [] _.
  - eapply g_bind; [apply g_ws|intros _ _]. eapply g_bind; [apply g_set_nt_ext|intros _ _].
    eapply g_bind; [apply g_guard_with; exact H|intros v V]. eapply g_bind; [apply g_nt|intros _ _].
    now apply g_comma_close.
  - eapply g_bind; [apply g_get|intros s _]. destruct (x_implicit_some _); [|apply g_fail]. now apply g_guard_with.
Qed.
Lemma g_de_unit : gives de_unit anyp.
Proof.
  unfold de_unit. eapply g_bind; [apply g_get|intros s _]. eapply g_bind with (P := anyp).
  { destruct (nt s); [now apply g_ret|apply g_total, total_consume_str]. }
  intros [] _; [apply g_nt|apply g_fail].
Qed.
Context {XI : XidOk E}.
Lemma g_struct_name n : gives (consume_struct_name n) anyp.
Proof. apply g_total, total_consume_struct_name. Qed.
Lemma g_de_unit_struct name : gives (de_unit_struct name) anyp.
Proof.
  unfold de_unit_struct. eapply g_bind with (P := anyp).
  { destruct (str_eqb _ _); [apply g_total, total_consume_str|now apply g_ret]. }
  intros [] _; [now apply g_ret|]. eapply g_bind; [apply g_get|intros s _]. eapply g_bind with (P := anyp).
  { destruct (nt s); [now apply g_ret|apply g_struct_name]. }
  intros [] _; [apply g_nt|apply g_de_unit].
Qed.
Lemma g_de_newtype {A} name (m : M A) P : gives m P -> gives (de_newtype name m) P.
Proof.
  intros H. unfold de_newtype. eapply g_bind; [apply g_get|intros s _]. destruct (_ || _).
  - eapply g_bind; [apply g_nt|intros _ _]. now apply g_guard_with.
  - eapply g_bind; [apply g_struct_name|intros _ _]. eapply g_bind; [apply g_ws|intros _ _].
    eapply g_bind; [apply g_consume|intros [] _]; [|destruct name; apply g_fail].
    eapply g_bind; [apply g_ws|intros _ _].
    eapply g_bind; [apply g_guard_with; exact H|intros v V]. now apply g_comma_close.
Qed.

(** ** Any *)
Notation aok := (any_ok fok).
Lemma g_any_number : gives any_number (num_ok fok).
Proof. apply g_yields; [apply total_any_number|apply y_any_number]. Qed.
Lemma range_ok l : Forall (fun p => wf_str (fst p) /\ num_ok fok (snd p)) l -> aok (range_entries l).
Proof.
  intros H. constructor. induction H as [|[k n] l [K N] _ IH]; cbn [map]; [constructor|].
  constructor; [|exact IH]. cbn [fst snd] in *. split; now constructor.
Qed.
Lemma wf_lit s : forallb is_scalar s = true -> wf_str s.
Proof. intros H. apply Forall_forall. now apply forallb_forall. Qed.
Lemma g_float_range n : num_ok fok n -> gives (float_range_or_value n) aok.
Proof.
  intros N. assert (S := wf_lit s_start eq_refl). assert (En := wf_lit s_end eq_refl).
  unfold float_range_or_value. eapply g_bind; [apply g_total, total_consume_str|intros [] _].
  - eapply g_bind; [apply g_any_number|intros e Ne]. apply g_ret, range_ok. repeat constructor; assumption.
  - eapply g_bind; [apply g_total, total_consume_str|intros [] _]; [|apply g_ret; now constructor].
    eapply g_bind; [apply g_src|intros r _]. destruct (num_start r).
    + eapply g_bind; [apply g_any_number|intros e Ne]. apply g_ret, range_ok. repeat constructor; assumption.
    + apply g_ret, range_ok. repeat constructor; assumption.
Qed.
Lemma g_integer t : gives (integer t) (int_of t).
Proof. apply g_yields; [apply total_integer|apply y_integer]. Qed.
Lemma g_de_bytes : gives de_bytes bytes_ok.
Proof.
  unfold de_bytes. eapply g_bind; [apply g_total, total_check_char|intros [] _]; [|apply g_byte_string].
  eapply g_bind; [|intros l L; apply g_ret; exact L]. apply g_de_seq, g_seq_all.
  eapply g_bind; [apply g_integer|intros [k z] [R K]]. apply g_ret. specialize (K _ eq_refl). cbn in K. subst k.
  unfold int_ok, in_range, byte_ok in *. cbn in *. lia.
Qed.
Lemma g_any_number_or_bytes : gives any_number_or_bytes aok.
Proof.
  assert (En := wf_lit s_end eq_refl).
  assert (R : gives (e <- any_number ;; ret (range_entries [(s_end, e)])) aok).
  { eapply g_bind; [apply g_any_number|intros e Ne]. apply g_ret, range_ok. repeat constructor; assumption. }
  unfold any_number_or_bytes. eapply g_bind; [apply g_src|intros r W]. destruct (_ && _).
  { eapply g_bind; [apply g_de_bytes|intros b B]. apply g_ret. now constructor. }
  eapply g_bind; [apply g_total, total_check_str|intros [] _].
  { eapply g_bind; [apply g_total, total_consume_str|intros _ _]. exact R. }
  eapply g_bind; [apply g_total, total_check_str|intros [] _].
  - eapply g_bind; [apply g_of_slice with (P := anyp); now intros|intros after _].
    match goal with |- gives (if ?b then _ else _) _ => destruct b end;
    (eapply g_bind; [apply g_total, total_consume_str|intros _ _]); [exact R|apply g_ret; constructor].
  - eapply g_bind; [apply g_any_number|intros n N]. now apply g_float_range.
Qed.
Lemma g_any_fields (any : M value) : gives any aok ->
  gives (l <- map_all c_rp (k <- de_identifier ;; ret (XStr k)) any ;; ret (XMap l)) aok.
Proof.
  intros H. eapply g_bind.
  - apply g_map_all with (P := aok) (Q := aok); [|exact H].
    eapply g_bind; [apply g_de_identifier|intros k K]. apply g_ret. now constructor.
  - intros l L. apply g_ret. now constructor.
Qed.
Lemma g_any_elems t (any : M value) : gives any aok -> gives (l <- seq_all t any ;; ret (XSeq l)) aok.
Proof.
  intros H. eapply g_bind; [apply g_seq_all; exact H|intros l L]. apply g_ret. now constructor.
Qed.
Lemma g_any_main any : gives any aok -> gives (any_main any) aok.
Proof.
  intros H. pose proof (in_special F32) as S32. pose proof (in_special F64) as S64. unfold any_main. cbn zeta.
  assert (ST : gives (t <- check_struct_type true false ;;
    match t with
    | SUnit => ret XUnit
    | Named => struct_after_name [] (l <- map_all c_rp (k <- de_identifier ;; ret (XStr k)) any ;;
                                     ret (XMap l))
    | _ => de_tuple (l <- seq_all c_rp any ;; ret (XSeq l))
    end) aok).
  { eapply g_bind; [apply g_total, total_check_struct_type|intros [] _];
    try (apply g_de_tuple, g_any_elems, H).
    - now apply g_struct_after, g_any_fields. - apply g_ret. constructor. }
  eapply g_bind; [apply g_ident|intros [] _]; [apply g_ret; constructor|].
  eapply g_bind; [apply g_ident|intros [] _]; [apply g_ret; constructor|].
  eapply g_bind; [apply g_total, total_check_ident|intros [] _].
  { apply g_de_option; [constructor|]. eapply g_bind; [exact H|intros v V]. apply g_ret. now constructor. }
  eapply g_bind; [apply g_ident|intros [] _]; [apply g_ret; constructor|].
  eapply g_bind; [apply g_total, total_consume_str|intros [] _]; [apply g_ret; constructor|].
  eapply g_bind; [apply g_ident|intros b1 _]. eapply g_bind with (P := anyp).
  { destruct b1; [now apply g_ret|apply g_ident]. }
  intros [] _; [apply g_float_range; cbn; tauto|].
  eapply g_bind; [apply g_ident|intros [] _]; [apply g_float_range; cbn; tauto|].
  eapply g_bind; [apply g_ident|intros b2 _]. eapply g_bind with (P := anyp).
  { destruct b2; [now apply g_ret|apply g_ident]. }
  intros [] _; [apply g_float_range; cbn; tauto|].
  eapply g_bind; [apply g_ident|intros [] _]; [apply g_float_range; cbn; tauto|].
  eapply g_bind; [apply g_total, total_skip_identifier|intros [id|] _].
  { eapply g_bind; [apply g_ws|intros _ _]. exact ST. }
  eapply g_bind; [apply g_peek|intros c _].
  destruct (c =? c_lp); [exact ST|]. destruct (c =? c_lb); [now apply g_de_seq, g_any_elems|].
  destruct (c =? c_lc).
  { apply g_de_map. eapply g_bind; [apply g_map_all; exact H|intros l L]. apply g_ret. now constructor. }
  destruct (_ || (c =? c_b)); [apply g_any_number_or_bytes|].
  destruct (_ || _).
  { eapply g_bind; [apply g_string|intros s W]. apply g_ret. now constructor. }
  destruct (c =? c_sq); [|apply g_fail]. eapply g_bind; [apply g_parse_char|intros d D]. apply g_ret. now constructor.
Qed.
Lemma g_de_any f : gives (de_any f) aok.
Proof.
  induction f as [|f IH]; cbn [de_any]; [apply g_oof|].
  eapply g_bind; [apply g_get|intros s _]. destruct (nt s); [|now apply g_any_main].
  eapply g_bind; [apply g_total, total_check_char|intros [] _].
  { eapply g_bind; [apply g_de_unit|intros _ _]. apply g_ret. constructor. }
  assert (T : gives (de_tuple (l <- seq_all c_rp (de_any f) ;; ret (XSeq l))) aok) by now apply g_de_tuple, g_any_elems.
  assert (N : gives (modify (set_nt false) ;;; any_main (de_any f)) aok).
  { eapply g_bind; [apply g_nt|intros _ _]. now apply g_any_main. }
  eapply g_bind; [apply g_total, total_check_struct_type|intros [] _]; auto.
  now apply g_struct_after, g_any_fields.
Qed.
Lemma g_any_value : gives any_value aok.
Proof. unfold any_value. eapply g_bind; [apply g_src|intros r _]. apply g_de_any. Qed.

Lemma norm_any_ok x : aok x -> aok (norm x).
Proof.
  remember (vsize x) as n eqn:Hn. assert (L : (vsize x <= n)%nat) by lia. clear Hn.
  revert x L; induction n as [|n IH]; intros x L H; [destruct x; cbn in L; lia|].
  destruct H as [| |m HM| | |x HX| | |l HL|]; try (now constructor).
  - cbn [norm]. constructor.
    assert (HM2 : Forall (fun kv => aok (fst kv) /\ aok (snd kv)) (map (fun kv => (norm (fst kv), norm (snd kv))) m)).
    { apply Forall_forall. intros kv [kv' [<- I1]]%in_map_iff. cbn [fst snd].
      assert (V := vsize_map _ _ I1). rewrite Forall_forall in HM. specialize (HM _ I1).
      split; apply IH; tauto || lia. }
    revert HM2. generalize (map (fun kv => (norm (fst kv), norm (snd kv))) m). intros l.
    unfold map_of_list.
    assert (Y : forall l acc, Forall (fun kv => aok (fst kv) /\ aok (snd kv)) l -> Forall (fun kv => aok (fst kv) /\ aok (snd kv)) acc ->
      Forall (fun kv => aok (fst kv) /\ aok (snd kv)) (fold_left (fun m kv => snd (map_insert (fst kv) (snd kv) m)) l acc)).
    { clear. induction l as [|[k v] l IH]; intros acc HL HA; [exact HA|]. inversion HL; subst. cbn [fold_left fst snd].
      apply IH; [assumption|]. apply Forall_forall. intros [k' v'] I1. apply insert_in in I1 as [I1 I2].
      rewrite Forall_forall in HA. cbn [fst snd] in *. split.
      - destruct I1 as [-> |[w I1]]; [tauto|]. now apply (HA (k', w)).
      - destruct I2 as [-> |I2]; [tauto|]. now apply (HA (k', v')). }
    intros HL. now apply Y.
  - cbn [norm]. constructor. apply IH; [cbn in L; lia|assumption].
  - cbn [norm]. constructor. apply Forall_forall. intros y [z [<- I1]]%in_map_iff.
    assert (V := vsize_seq _ _ I1). rewrite Forall_forall in HL. apply IH; [lia|auto].
Qed.

(** ** Raw values *)
Lemma wfs_pre_ws s : wfs s -> wf_str (pre_ws s).
Proof. intros (T & W & (_ & [p ->] & _)). now apply wf_app in W. Qed.
Lemma g_de_raw : gives de_raw wf_str.
Proof.
  unfold de_raw. eapply g_bind with (P := wf_str).
  { intros s S. cbn. split; [now apply wfs_pre_ws|assumption]. }
  intros before W. eapply g_bind; [apply g_ws|intros _ _]. eapply g_bind; [apply g_any_value|intros _ _].
  eapply g_bind; [apply g_ws|intros _ _]. eapply g_bind; [apply g_src|intros after _].
  eapply g_bind with (P := anyp); [intros s S; now cbn|intros [] _]; [apply g_fail|].
  eapply g_bind with (P := wf_str).
  - unfold slice_before. destruct (Nat.leb _ _); [|apply g_panic]. apply g_of_slice. intros a Q. exact (btake_wf _ _ _ W Q).
  - intros ron R. destruct (from_str _ _ ron); [now apply g_ret|apply g_fail|apply g_panic|apply g_oof].
Qed.

(** ** Typed *)
Section Typed.
Variable tenv : nat -> ty.
Notation hty := (has_ty tenv fok).

Lemma num_into_ok n t v : num_ok fok n -> num_into n t = Some v -> hty t v.
Proof.
  intros N. destruct t, n as [k' z|k' b]; cbn [num_into]; try discriminate.
  - destruct (_ && _) eqn:B; [|discriminate]. intros Q. injection Q as <-. constructor. now apply andb_true_iff in B.
  - destruct (is_128 k'); [discriminate|]. intros Q. injection Q as <-. constructor. apply in_of_int.
  - intros Q. apply some_inj in Q. subst v. constructor. cbn in N.
    destruct k, k'; auto; [now apply in_narrow|now apply in_widen].
  - intros Q. injection Q as <-. apply (t_any _ _ (XNum (NInt k' z))). now constructor.
  - intros Q. injection Q as <-. apply (t_any _ _ (XNum (NFloat k' b))). now constructor.
  - intros Q. injection Q as <-. constructor.
  - intros Q. injection Q as <-. constructor.
Qed.
Lemma resolve_ok t v : hty (resolve tenv t) v -> hty t v.
Proof. destruct t; auto. cbn. intros H. now constructor. Qed.
Lemma range_fields_ok fields ns l : Forall (num_ok fok) ns ->
  range_fields (map (fun p => (fst p, resolve tenv (snd p))) fields) ns = Some l ->
  map fst l = map fst fields /\ Forall (fun fv => exists t, In (fst fv, t) fields /\ hty t (snd fv)) l.
Proof.
  revert ns l; induction fields as [|[f t] fields IH]; intros [|n ns] l HN; cbn [map fst snd range_fields]; try discriminate.
  - intros Q. injection Q as <-. auto.
  - inversion HN; subst. destruct (num_into n _) as [v|] eqn:V; [|discriminate].
    destruct (range_fields _ ns) as [l'|] eqn:R; [|discriminate]. intros Q. injection Q as <-.
    destruct (IH _ _ H2 R) as [A B]. cbn [map fst]. split; [now rewrite A|]. constructor.
    + exists t. cbn. split; [now left|]. apply resolve_ok. exact (num_into_ok _ _ _ H1 V).
    + eapply Forall_impl; [|exact B]. intros fv (t' & I1 & T). exists t'. cbn. auto.
Qed.
Lemma y_range_prologue name fields : yields (range_prologue name fields) (fun o => match o with Some ns => Forall (num_ok fok) ns | None => True end).
Proof.
  unfold range_prologue. apply y_then. intros r. cbn zeta.
  assert (One : yields (a <- any_number ;; ret (Some [a])) (fun o => match o with Some ns => Forall (num_ok fok) ns | None => True end)).
  { eapply y_bind; [apply y_any_number|intros a HA]. apply y_ret. repeat constructor. assumption. }
  match goal with |- yields (if ?b then _ else _) _ => destruct b end.
  - eapply y_bind; [apply y_any_number|intros a HA]. apply y_then. intros i. apply y_then. intros d.
    destruct (negb d); [apply y_fail|]. destruct (_ && _); [apply y_fail|]. destruct (_ && _); [apply y_fail|].
    eapply y_bind; [apply y_any_number|intros b HB]. apply y_ret. repeat constructor; assumption.
  - apply y_then. intros [].
    + eapply y_bind; [apply y_any_number|intros a HA]. apply y_then. intros []; [apply y_fail|].
      apply y_then. intros []; [|apply y_fail]. apply y_ret. repeat constructor. assumption.
    + match goal with |- yields (if ?b then _ else _) _ => destruct b end.
      { apply y_then. intros []; [apply y_fail|]. apply y_then. intros _. exact One. }
      match goal with |- yields (if ?b then _ else _) _ => destruct b end; [|now apply y_ret].
      apply y_then. intros []; cbn [negb]; [exact One|]. apply y_then. intros. apply y_fail.
Qed.

Definition acc_ok (fields : list (str * ty)) (acc : list (str * val)) : Prop :=
  Forall (fun fv => exists t, In (fst fv, t) fields /\ hty t (snd fv)) acc.
Lemma g_field_key deny fields : gives (field_key deny fields) anyp.
Proof.
  unfold field_key. eapply g_bind; [apply g_de_identifier|intros k _].
  destruct (assoc k fields); [now apply g_ret|]. destruct deny; [apply g_fail|now apply g_ret].
Qed.
Lemma g_struct_loop rec deny fields n : (forall t, gives (rec t) (hty t)) ->
  forall acc h, acc_ok fields acc -> gives (struct_loop rec deny fields n acc h) (acc_ok fields).
Proof.
  intros H. induction n as [|n IH]; intros acc h HA; cbn [struct_loop]; [apply g_oof|].
  eapply g_bind; [apply g_next_key, g_field_key|intros [k|] _]; [|now apply g_ret].
  destruct (assoc k fields) as [t|] eqn:K.
  - destruct (assoc k acc); [apply g_fail|]. eapply g_bind; [apply g_next_value, H|intros [v c] V].
    apply IH. constructor; [|exact HA]. exists t. cbn. split; [now apply assoc_in|exact V].
  - eapply g_bind; [apply g_next_value, g_any_value|intros [v c] V]. now apply IH.
Qed.
Lemma y_collect fields acc fs : incl fs fields -> acc_ok fields acc ->
  yields (collect (is_option tenv) fs acc) (fun l => map fst l = map fst fs /\ acc_ok fields l).
Proof.
  intros HI HA. induction fs as [|[f t] fs IH]; cbn [collect]; [apply y_ret; split; [reflexivity|constructor]|].
  eapply y_bind with (P := fun v => exists t, In (f, t) fields /\ hty t v).
  - destruct (assoc f acc) as [v|] eqn:K.
    + apply y_ret. apply assoc_in in K. unfold acc_ok in HA. rewrite Forall_forall in HA. exact (HA _ K).
    + destruct (is_option tenv t) eqn:O; [|apply y_fail]. apply y_ret. exists t. split; [apply HI; now left|].
      apply resolve_ok. unfold is_option in O. destruct (resolve tenv t); try discriminate. constructor.
  - intros v (t' & I1 & T). eapply y_bind; [apply IH; intros x I2; apply HI; now right|intros l [L1 L2]].
    apply y_ret. cbn. split; [now rewrite L1|]. constructor; [|exact L2]. now exists t'.
Qed.
Lemma g_struct_body rec deny fields : (forall t, gives (rec t) (hty t)) ->
  gives (struct_body rec deny fields (is_option tenv)) (fun l => map fst l = map fst fields /\ acc_ok fields l).
Proof.
  intros H. unfold struct_body. eapply g_bind; [apply g_src|intros r _].
  eapply g_bind; [apply g_struct_loop; [exact H|constructor]|intros acc HA].
  apply g_yields; [apply collect_total|]. apply y_collect; [now intros x|exact HA].
Qed.
Lemma g_elems rec ts : (forall t, gives (rec t) (hty t)) ->
  gives (tuple_elems (map rec ts) 0 true) (Forall2 hty ts).
Proof.
  intros H. eapply g_weaken; [apply g_tuple_elems with (Ps := map hty ts)|].
  - induction ts; constructor; auto.
  - intros l L. remember (map hty ts) as Ps eqn:Q. revert ts Q.
    induction L as [|P a Ps l HP _ IH]; intros [|t ts] Q; try discriminate; [constructor|].
    injection Q as -> Q. constructor; auto.
Qed.
Lemma g_float t : gives (float t) (float_of t).
Proof. apply g_yields; [apply total_float|apply y_float]. Qed.
Lemma g_de_step rec t : (forall t, gives (rec t) (hty t)) -> gives (de_step tenv rec t) (hty t).
Proof.
  intros H. destruct t; cbn [de_step].
  - eapply g_bind; [apply g_total, total_parse_bool|intros b _]. apply g_ret. constructor.
  - destruct (int_supported k); [|apply g_fail]. eapply g_bind; [apply g_integer|intros [k' z] [R K]].
    apply g_ret. specialize (K _ eq_refl). cbn in K. subst k'. now constructor.
  - eapply g_bind; [apply g_float|intros [k' z] [R K]].
    apply g_ret. specialize (K _ eq_refl). cbn in K. subst k'. now constructor.
  - eapply g_bind; [apply g_parse_char|intros c C]. apply g_ret. now constructor.
  - eapply g_bind; [apply g_string|intros c C]. apply g_ret. now constructor.
  - eapply g_bind; [apply g_de_bytes|intros c C]. apply g_ret. now constructor.
  - eapply g_bind; [apply g_de_unit|intros _ _]. apply g_ret. constructor.
  - eapply g_bind; [apply g_de_unit_struct|intros _ _]. apply g_ret. constructor.
  - apply g_de_option; [constructor|]. eapply g_bind; [apply H|intros v V]. apply g_ret. now constructor.
  - apply g_de_newtype. eapply g_bind; [apply H|intros v V]. apply g_ret. now constructor.
  - apply g_de_seq. eapply g_bind; [apply g_seq_all, H|intros v V]. apply g_ret. now constructor.
  - apply g_de_tuple. eapply g_bind; [apply g_elems, H|intros v V]. apply g_ret. now constructor.
  - eapply g_bind; [apply g_get|intros s _]. eapply g_bind with (P := anyp).
    { destruct (nt s); [now apply g_ret|apply g_struct_name]. }
    intros _ _. apply g_map_err, g_de_tuple. eapply g_bind; [apply g_elems, H|intros v V]. apply g_ret. now constructor.
  - apply g_de_map. eapply g_bind; [apply g_map_all; apply H|intros l L]. apply g_ret. now constructor.
  - eapply g_bind; [apply g_yields; [apply total_range_prologue|apply y_range_prologue]|intros [ns|] N].
    + destruct (range_fields _ ns) as [l|] eqn:R; [|apply g_fail]. apply g_ret.
      destruct (range_fields_ok _ _ _ N R). now constructor.
    + eapply g_bind; [apply g_get|intros s _]. eapply g_bind with (P := anyp).
      { destruct (nt s); [now apply g_ret|apply g_struct_name]. }
      intros _ _. eapply g_bind; [apply g_ws|intros _ _]. apply g_struct_after.
      eapply g_bind; [apply g_struct_body, H|intros l [L1 L2]]. apply g_ret. now constructor.
  - eapply g_bind; [apply g_nt|intros _ _]. apply g_map_err, g_guard_with.
    eapply g_bind; [apply g_ws|intros _ _].
    eapply g_bind with (P := fun p => In p variants).
    { apply g_guard_with. eapply g_bind; [apply g_de_identifier|intros k _].
      destruct (assoc k variants) as [w|] eqn:K; [|apply g_fail]. apply g_ret. now apply assoc_in. }
    intros [k w] I1. destruct w as [|t|ts|deny fields].
    + apply g_ret. now constructor.
    + eapply g_bind; [apply g_get|intros s _]. eapply g_bind; [apply g_ws|intros _ _].
      eapply g_bind; [apply g_consume|intros [] _]; [|apply g_fail]. eapply g_bind; [apply g_ws|intros _ _].
      eapply g_bind; [apply g_set_nt_ext|intros _ _].
      eapply g_bind; [apply g_guard_with, g_map_err, H|intros v V]. eapply g_bind; [apply g_nt|intros _ _].
      apply g_comma_close. now apply t_new_variant with t.
    + eapply g_bind; [apply g_ws|intros _ _]. apply g_de_tuple.
      eapply g_bind; [apply g_elems, H|intros v V]. apply g_ret. now apply t_tup_variant with ts.
    + eapply g_bind; [apply g_get|intros s _]. eapply g_bind; [apply g_ws|intros _ _].
      apply g_map_err, g_struct_after. eapply g_bind; [apply g_struct_body, H|intros l [L1 L2]].
      apply g_ret. now apply t_struct_variant with deny fields.
  - eapply g_bind; [apply g_any_value|intros x V]. apply g_ret. now constructor.
  - eapply g_bind; [apply g_any_value|intros x V]. apply g_ret. constructor.
  - eapply g_bind; [apply g_de_raw|intros s S]. apply g_ret. now constructor.
  - eapply g_weaken; [apply H|]. intros v V. now constructor.
Qed.
Lemma g_de_ty f t : gives (de_ty tenv f t) (hty t).
Proof.
  revert t; induction f as [|f IH]; intros t; cbn [de_ty]; [apply g_oof|]. now apply g_de_step.
Qed.
End Typed.
End WithEnv.

(** ** Documents *)
Section Document.
Context {E : Env} {XI : XidOk E}.
Lemma g_document {A} o (m : M A) P text v : wf_str text -> gives m P ->
  options_from_str o m text = RValue v -> P v.
Proof.
  intros W H. unfold options_from_str, from_str.
  assert (G : forall a s', document o m (init_state text) = Ok a s' -> P a).
  { intros a s' D. unfold document, bind in D.
    assert (N := parser_new_total text _ (inv_init text)). Transparent wp. unfold wp in N. Opaque wp.
    destruct (parser_new (init_state text)) as [u s1| | |]; try discriminate.
    cbn [modify] in D. set (s2 := set_lim _ _) in D.
    assert (S : wfs s2) by (exists text; split; [assumption|apply N]).
    specialize (H s2 S). destruct (m s2) as [a2 s3| | |]; try discriminate.
    destruct (de_end s3); try discriminate. injection D as <- _. apply H. }
  unfold spanned. destruct (document o m (init_state text)) as [a s'|e s'| |] eqn:D; try discriminate.
  - intros Q. injection Q as <-. exact (G _ _ eq_refl).
  - now match goal with |- context [match ?x with _ => _ end] => destruct x end.
Qed.

(** an escape for a code point that is not a scalar value is refused *)
Lemma refuses_escape_unicode b ch s c : (1 <= length s <= 6)%nat -> hex_number s c -> is_scalar c = false ->
  refuses (parse_escape b ch) (117 :: c_lc :: s ++ [c_rc]) anything (fun e => e = EInvalidEscape).
Proof.
  intros L H Sc. apply hex_number_fold in H as [FH V]. unfold parse_escape.
  apply (reads_refuses _ _ [117] (c_lc :: s ++ [c_rc]) anything anything 117); [apply reads_next_char| |now intros].
  cbn [N.eqb Pos.eqb].
  apply (reads_refuses _ _ [c_lc] (s ++ [c_rc]) anything anything tt); [apply reads_expect_char| |now intros].
  refine (reads_refuses _ _ s [c_rc] _ anything _ _ (reads_unicode_digits s 6 0 0 FH _) _ _); [lia| |].
  - rewrite V. replace (Nat.eqb (0 + length s) 0) with false by lia.
    apply (reads_refuses _ _ [c_rc] [] anything anything tt); [apply reads_expect_char| |now intros].
    rewrite Sc. intros T st r J Hs _. apply wp_fail. auto.
  - intros r _. now exists r.
Qed.
Lemma refuses_char_unicode s c : (1 <= length s <= 6)%nat -> hex_number s c -> is_scalar c = false ->
  refuses parse_char (c_sq :: c_bs :: 117 :: c_lc :: s ++ [c_rc]) anything (fun e => e = EInvalidEscape).
Proof.
  intros L H Sc. unfold parse_char.
  apply (reads_refuses _ _ [c_sq] (c_bs :: 117 :: c_lc :: s ++ [c_rc]) anything anything tt); [apply reads_expect_char| |now intros].
  apply (reads_refuses _ _ [c_bs] (117 :: c_lc :: s ++ [c_rc]) anything anything c_bs); [apply reads_next_char| |now intros].
  apply refuses_bind. rewrite N.eqb_refl. apply refuses_bind. now apply refuses_escape_unicode with c.
Qed.
Lemma refuses_loop_unicode h c : (1 <= length h <= 6)%nat -> hex_number h c -> is_scalar c = false ->
  forall n t bs, (length t <= n)%nat -> quoted false t bs ->
  forall T s p e eb acc r fuel, inv T s -> escape_seq false e eb ->
  rest s = p ++ c_bs :: e ++ t ++ c_bs :: (117 :: c_lc :: h ++ [c_rc]) ++ r -> (length (rest s) < fuel)%nat ->
  wp (escaped_loop fuel false (blen p) acc) (fun _ _ => False) (fun e s' => e = EInvalidEscape) s.
Proof.
  intros LH HH Sc. set (u := 117 :: c_lc :: h ++ [c_rc]).
  induction n as [|n IH]; intros t bs L H T s p e eb acc r fuel J He Hs LF;
  (destruct fuel as [|fuel]; [lia|]); cbn [escaped_loop].
  all: apply wp_bind; refine (wp_reads _ (p ++ [c_bs]) anything _ _ _ (e ++ t ++ c_bs :: u ++ r) _ _ (reads_advance _ _ _) J _ Logic.I _);
    [rewrite blen_app; reflexivity|now rewrite <- app_assoc|].
  all: intros s1 E1 A1; apply wp_bind; destruct (reads_escape _ _ _ He) as (x & <- & RE).
  all: refine (wp_reads _ e anything _ _ _ (t ++ c_bs :: u ++ r) _ _ RE (adv_inv _ _ _ A1) E1 Logic.I _); intros s2 E2 A2.
  all: assert (A12 := adv_trans _ _ _ _ A1 A2).
  all: eapply wp_bind_ok; [unfold src; reflexivity|]; rewrite E2.
  all: destruct (quoted_split _ _ _ H) as (q & FQ & [[-> ->]|(e' & eb' & t' & bs' & -> & -> & He' & H')]).
  all: try (rewrite find_char_app by (first [reflexivity|assumption]); rewrite N.eqb_refl;
    destruct fuel as [|fuel]; [rewrite Hs, !app_length in LF; cbn [length] in LF; unfold str, char in *; lia|]; cbn [escaped_loop];
    apply wp_bind; refine (wp_reads _ (q ++ [c_bs]) anything _ _ _ (u ++ r) _ _ (reads_advance _ _ _) (adv_inv _ _ _ A12) _ Logic.I _);
    [rewrite blen_app; reflexivity|rewrite E2; now rewrite <- app_assoc|];
    intros s3 E3 A3; apply wp_bind;
    eapply wp_conseq; [apply (refuses_escape_unicode false false h c LH HH Sc T s3 r (adv_inv _ _ _ A3) E3 Logic.I)|contradiction|];
    cbn beta; tauto).
  - rewrite app_length in L. cbn in L. lia.
  - replace ((q ++ c_bs :: e' ++ t') ++ c_bs :: u ++ r) with (q ++ c_bs :: e' ++ t' ++ c_bs :: u ++ r) in *
      by (rewrite <- app_assoc; cbn [app]; now rewrite <- app_assoc).
    rewrite find_char_app by (first [reflexivity|assumption]). rewrite N.eqb_refl.
    eapply (IH t' bs'); try eassumption.
    + rewrite app_length in L. cbn [length] in L. rewrite app_length in L. unfold str, char in *; lia.
    + apply (adv_inv _ _ _ A2).
    + rewrite E2. rewrite Hs, !app_length in LF. cbn [length] in LF. rewrite app_length in LF.
      unfold str, char in *; lia.
Qed.
Lemma find_dq_prefix q l : forallb not_special q = true ->
  find_char (fun c => c =? c_dq) (q ++ c_bs :: l) =
  match find_char (fun c => c =? c_dq) l with Some (a, b) => Some (q ++ c_bs :: a, b) | None => None end.
Proof.
  intros FQ. induction q as [|c q IH]; cbn [app find_char].
  - replace (c_bs =? c_dq) with false by reflexivity. now destruct (find_char _ l) as [[]|].
  - cbn [forallb] in FQ. apply andb_prop in FQ as [F1 F2]. unfold not_special in F1.
    destruct (c =? c_dq); [discriminate|]. rewrite (IH F2). now destruct (find_char _ l) as [[]|].
Qed.
Lemma refuses_string_unicode t bs h c : quoted false t bs -> (1 <= length h <= 6)%nat -> hex_number h c -> is_scalar c = false ->
  refuses parse_string (c_dq :: t ++ c_bs :: 117 :: c_lc :: h ++ [c_rc]) anything
    (fun e => e = EInvalidEscape \/ e = EExpectedStringEnd).
Proof.
  intros H LH HH Sc. unfold parse_string.
  apply (reads_refuses _ _ [c_dq] (t ++ c_bs :: 117 :: c_lc :: h ++ [c_rc]) anything anything true); [apply reads_consume_char| |now intros].
  unfold escaped_string. apply refuses_total; [apply total_finish_string, total_escaped_byte_buf|].
  intros T s r J Hs _. unfold finish_string. apply wp_bind. unfold escaped_byte_buf. eapply wp_bind_ok; [unfold src; reflexivity|]. rewrite Hs.
  set (u := 117 :: c_lc :: h ++ [c_rc]) in *.
  destruct (quoted_split _ _ _ H) as (q & FQ & [[-> ->]|(e & eb & t' & bs' & -> & -> & He & H')]).
  - replace ((q ++ c_bs :: u) ++ r) with (q ++ c_bs :: u ++ r) in * by now rewrite <- app_assoc.
    rewrite find_dq_prefix by exact FQ.
    destruct (find_char _ (u ++ r)) as [[a b]|]; [|apply wp_fail; auto].
    rewrite find_char_app; [|eapply forallb_weaken; [|exact FQ]; intros ?; unfold not_special; lia|reflexivity].
    cbn [escaped_loop].
    apply wp_bind; refine (wp_reads _ (q ++ [c_bs]) anything _ _ _ (u ++ r) _ _ (reads_advance _ _ _) J _ Logic.I _);
    [rewrite blen_app; reflexivity|now rewrite <- app_assoc|].
    intros s3 E3 A3; apply wp_bind.
    eapply wp_conseq; [apply (refuses_escape_unicode false false h c LH HH Sc T s3 r (adv_inv _ _ _ A3) E3 Logic.I)|contradiction|].
    cbn beta. tauto.
  - replace (((q ++ c_bs :: e ++ t') ++ c_bs :: u) ++ r) with (q ++ c_bs :: e ++ t' ++ c_bs :: u ++ r) in *
      by (rewrite <- !app_assoc; cbn [app]; now rewrite <- !app_assoc).
    rewrite find_dq_prefix by exact FQ.
    destruct (find_char _ (e ++ _)) as [[a b]|]; [|apply wp_fail; auto].
    rewrite find_char_app; [|eapply forallb_weaken; [|exact FQ]; intros ?; unfold not_special; lia|reflexivity].
    eapply wp_conseq; [eapply (refuses_loop_unicode h c LH HH Sc (length t') t' bs' (le_n _) H' T s q e eb (enc q) r); auto|contradiction|].
    + rewrite Hs. unfold str, char in *. lia.
    + cbn beta. auto.
Qed.
End Document.
