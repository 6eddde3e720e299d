(** What the serializer writes for leaves is in the literal grammar. *)
From Coq Require Import String Ascii NArith ZArith Lia Bool List.
From Coq Require Import ZifyBool ZifyNat ZifyN.
From Verif Require Import Base Facts Value Data Parse De Ser EnvOk Layout Lit Attr ShowFacts LexRead DocRead.
Import ListNotations.
Open Scope N_scope.
Open Scope list_scope.
Open Scope sm_scope.

(** on a writer that does not fail, [m] writes exactly [t] and nothing else
    happens *)
Definition emits (m : SM unit) (t : str) : Prop :=
  forall s, w_cap s = None -> m s = SOk tt (sset_out (w_out s ++ t) s).
Lemma emits_write t : emits (write t) t.
Proof. intros s H. unfold write. now rewrite H. Qed.
Lemma emits_ret : emits (sret tt) [].
Proof. intros s H. unfold sret. rewrite app_nil_r. now destruct s. Qed.
Lemma emits_seq m k a b : emits m a -> emits k b -> emits (m ;~ k) (a ++ b).
Proof.
  intros H1 H2 s H. unfold sbind. rewrite H1 by assumption. rewrite H2 by assumption.
  cbn. rewrite app_assoc. reflexivity.
Qed.
Lemma emits_if (b : bool) m k a c : emits m a -> emits k c -> emits (if b then m else k) (if b then a else c).
Proof. now destruct b. Qed.

(** ** Strings *)
Lemma max_hashes_best s : forall c b, (b <= max_hashes c b s)%nat.
Proof. induction s as [|x s IH]; intros c b; cbn [max_hashes]; [lia|]. destruct (x =? c_hash); [specialize (IH (S c) (Nat.max b (S c)))|specialize (IH 0%nat b)]; lia. Qed.
Lemma max_hashes_run n : forall s c b, (c <= b)%nat -> (c + n <= max_hashes c b (repeat c_hash n ++ s))%nat.
Proof.
  induction n as [|n IH]; intros s c b L; cbn [repeat app].
  - assert (H := max_hashes_best s c b). lia.
  - cbn [max_hashes]. rewrite N.eqb_refl. specialize (IH s (S c) (Nat.max b (S c))). lia.
Qed.
Lemma max_hashes_inside a : forall c b n s, (c <= b)%nat -> (n <= max_hashes c b (a ++ c_dq :: repeat c_hash n ++ s))%nat.
Proof.
  induction a as [|x a IH]; intros c b n s L; cbn [app max_hashes].
  - change (c_dq =? c_hash) with false. cbv iota. assert (H := max_hashes_run n s 0 b). lia.
  - destruct (x =? c_hash); apply IH; lia.
Qed.
Lemma max_hashes_raw s : raw_body (S (max_hashes 0 0 s)) s.
Proof.
  intros a b Q. assert (H := max_hashes_inside a 0 0 (S (max_hashes 0 0 s)) b).
  rewrite <- Q in H. lia.
Qed.

Section WithEnv.
Context {E : Env}.

Lemma escape_debug_quoted c t bs : is_scalar c = true -> quoted false t bs ->
  quoted false (escape_debug c ++ t) (enc_char c ++ bs).
Proof.
  intros Sc Q. unfold escape_debug.
  assert (SI : forall e v, simple_escape e v -> v < 128 -> quoted false ([c_bs; e] ++ t) (enc_char v ++ bs)).
  { intros e v SE L. replace (enc_char v) with [v] by (unfold enc_char; now replace (v <? 128) with true by lia).
    apply (q_escape false [e] [v] t bs); [now apply es_simple|assumption]. }
  destruct (c =? 0) eqn:C0; [apply N.eqb_eq in C0 as ->; apply SI; [constructor|lia]|].
  destruct (c =? 9) eqn:C9; [apply N.eqb_eq in C9 as ->; apply SI; [constructor|lia]|].
  destruct (c =? 13) eqn:C13; [apply N.eqb_eq in C13 as ->; apply SI; [constructor|lia]|].
  destruct (c =? 10) eqn:C10; [apply N.eqb_eq in C10 as ->; apply SI; [constructor|lia]|].
  destruct ((c =? c_bs) || (c =? c_dq) || (c =? c_sq)) eqn:CQ.
  { assert (c = c_bs \/ c = c_dq \/ c = c_sq) as [-> |[-> | ->]] by lia; apply SI; try constructor; lia. }
  destruct (negb (grapheme_extended c) && printable c).
  - apply q_plain; [lia|lia|assumption].
  - assert (L : c < 1114112) by (unfold is_scalar in Sc; lia).
    change (quoted false (c_bs :: (117 :: c_lc :: show_hex c ++ [c_rc]) ++ t) (enc_char c ++ bs)).
    apply (q_escape false (117 :: c_lc :: show_hex c ++ [c_rc])); [|assumption].
    apply es_unicode; [now apply show_hex_length|apply show_hex_number|assumption].
Qed.
Lemma escape_debug_str s : wf_str s -> quoted false (flat_map escape_debug s) (enc s).
Proof.
  induction 1 as [|c s Sc W IH]; [constructor|]. cbn [flat_map enc]. now apply escape_debug_quoted.
Qed.
Lemma plain_quoted binary s : existsb (fun c => (c =? c_dq) || (c =? c_bs)) s = false -> quoted binary s (enc s).
Proof.
  induction s as [|c s IH]; intros H; [constructor|]. cbn [existsb] in H. apply orb_false_elim in H as [H1 H2].
  cbn [enc flat_map]. apply q_plain; [lia|lia|auto].
Qed.
Lemma ascii_escape_quoted b t bs : b < 256 -> quoted true t bs -> quoted true (ascii_escape_default b ++ t) (b :: bs).
Proof.
  intros L Q. unfold ascii_escape_default.
  assert (SI : forall e v, simple_escape e v -> quoted true ([c_bs; e] ++ t) (v :: bs)).
  { intros e v SE. apply (q_escape true [e] [v] t bs); [now apply es_simple|assumption]. }
  destruct (b =? 9) eqn:C9; [apply N.eqb_eq in C9 as ->; apply SI; constructor|].
  destruct (b =? 13) eqn:C13; [apply N.eqb_eq in C13 as ->; apply SI; constructor|].
  destruct (b =? 10) eqn:C10; [apply N.eqb_eq in C10 as ->; apply SI; constructor|].
  destruct ((b =? c_sq) || (b =? c_dq) || (b =? c_bs)) eqn:CQ.
  { assert (b = c_sq \/ b = c_dq \/ b = c_bs) as [-> |[-> | ->]] by lia; apply SI; constructor. }
  destruct ((32 <=? b) && (b <? 127)) eqn:P.
  - assert (EN : b :: bs = enc_char b ++ bs) by (unfold enc_char; now replace (b <? 128) with true by lia).
    rewrite EN.
    apply q_plain; [lia|lia|assumption].
  - assert (D := N.div_mod b 16). assert (ML : b mod 16 < 16) by (apply N.mod_lt; lia).
    assert (DL : b / 16 < 16) by (apply N.div_lt_upper_bound; lia).
    apply (q_escape true [120; digit_char (b / 16); digit_char (b mod 16)] [b]); [|assumption].
    apply es_byte; [reflexivity|]. replace b with (b / 16 * 16 + b mod 16) at 3 by lia.
    apply hb_one; now apply hex_digit_char.
Qed.
Lemma ascii_escape_bytes v : Forall (fun b => b < 256) v -> quoted true (flat_map ascii_escape_default v) v.
Proof. induction 1 as [|b v L F IH]; [constructor|]. cbn [flat_map]. now apply ascii_escape_quoted. Qed.

Section Config.
Variable o : opts.
Variable cfg : option pconf.

Lemma emits_escaped_str s : wf_str s -> exists t, emits (escaped_str s) t /\ string_lit t s.
Proof.
  intros W. eexists. split; [unfold escaped_str; repeat (apply emits_seq || apply emits_write)|].
  cbn [app]. constructor; [assumption|]. now apply escape_debug_str.
Qed.
Lemma emits_unescaped pre s : exists t n, emits (unescaped_or_raw pre s) (pre ++ t) /\
  ((quoted false s (enc s) /\ quoted true s (enc s) /\ t = c_dq :: s ++ [c_dq]) \/
   (raw_body n s /\ t = c_r :: repeat c_hash n ++ c_dq :: s ++ c_dq :: repeat c_hash n)).
Proof.
  unfold unescaped_or_raw. destruct (existsb (fun c => (c =? c_dq) || (c =? c_bs)) s) eqn:X.
  - exists (c_r :: repeat c_hash (S (max_hashes 0 0 s)) ++ c_dq :: s ++ c_dq :: repeat c_hash (S (max_hashes 0 0 s))), (S (max_hashes 0 0 s)).
    split; [|right; split; [apply max_hashes_raw|reflexivity]].
    match goal with |- emits _ ?t => replace t with
      ((pre ++ [c_r]) ++ repeat c_hash (S (max_hashes 0 0 s)) ++ [c_dq] ++ s ++ [c_dq] ++ repeat c_hash (S (max_hashes 0 0 s)))
      by (rewrite <- app_assoc; reflexivity) end.
    repeat (apply emits_seq || apply emits_write).
  - exists (c_dq :: s ++ [c_dq]), 0%nat. split; [|left; repeat split; now apply plain_quoted].
    replace (pre ++ c_dq :: s ++ [c_dq]) with ((pre ++ [c_dq]) ++ s ++ [c_dq]) by (rewrite <- app_assoc; reflexivity).
    repeat (apply emits_seq || apply emits_write).
Qed.
Lemma emits_str s : wf_str s -> exists t, emits (ser_str cfg s) t /\ string_lit t s.
Proof.
  intros W. unfold ser_str. destruct (escape_strings cfg); [now apply emits_escaped_str|].
  destruct (emits_unescaped [] s) as (t & n & HE & [(Q & _ & ->)|(RB & ->)]); eexists; (split; [exact HE|]); cbn [app].
  - now constructor.
  - now constructor.
Qed.
Lemma emits_bytes v : Forall (fun b => b < 256) v -> exists t, emits (ser_bytes cfg v) t /\ bytes_lit t v.
Proof.
  intros F.
  assert (ES : exists t, emits (escaped_byte_str v) t /\ bytes_lit t v).
  { eexists. split; [unfold escaped_byte_str; repeat (apply emits_seq || apply emits_write)|].
    unfold s_bdq. cbn [app]. constructor. now apply ascii_escape_bytes. }
  unfold ser_bytes. destruct (negb (escape_strings cfg)); [|assumption].
  destruct (from_utf8 v) as [s|] eqn:U; [|assumption]. apply from_utf8_spec in U as [W ->].
  destruct (emits_unescaped [c_b] s) as (t & n & HE & [(_ & Q & ->)|(RB & ->)]); eexists; (split; [exact HE|]); cbn [app].
  - now constructor.
  - now constructor.
Qed.
Lemma emits_char c : exists t, emits (ser_char c) t /\ char_lit t c.
Proof.
  unfold ser_char. destruct ((c =? c_bs) || (c =? c_sq)) eqn:Q; eexists;
    (split; [repeat (apply emits_seq || apply emits_write || apply emits_ret)|]); cbn [app].
  - apply (cl_simple c c). assert (c = c_bs \/ c = c_sq) as [-> | ->] by lia; constructor.
  - apply cl_plain. lia.
Qed.
Lemma emits_int k z : int_supported k = true ->
  emits (ser_int cfg k z) (show_Z z ++ if number_suffixes cfg then ik_suffix k else []).
Proof.
  intros SP. unfold ser_int. rewrite SP. apply emits_seq; [apply emits_write|].
  apply emits_if; [apply emits_write|apply emits_ret].
Qed.

(** ** Floats *)
Context {FO : FloatOk E}.
(** NaN payloads are not written *)
Definition canon (k : fk) (b : N) : N :=
  if f_is_nan k b then f_nan k + (if f_sign k b then f_signbit k else 0) else b.
Definition float_text (k : fk) (b : N) : str :=
  (if f_is_nan k b && f_sign k b then [c_minus] else []) ++ f_show k b ++ (if f_integral k b then s_point_zero else []).
Lemma emits_float k b : emits (ser_float cfg k b) (float_text k b ++ if number_suffixes cfg then fk_suffix k else []).
Proof.
  unfold ser_float, float_text. rewrite <- !app_assoc.
  repeat (apply emits_seq); repeat (apply emits_if); try apply emits_write; try apply emits_ret.
Qed.
Lemma f_abs_bound k b : f_abs k b < f_signbit k.
Proof. apply N.mod_lt. destruct k; discriminate. Qed.
Lemma f_split k b : b < 2 ^ f_bits k -> b = f_abs k b + (if f_sign k b then f_signbit k else 0).
Proof.
  intros H. unfold f_abs, f_sign, f_signbit.
  assert (TB := N.testbit_spec' b (f_bits k - 1)).
  assert (MP : 2 ^ f_bits k = 2 * 2 ^ (f_bits k - 1)) by (destruct k; reflexivity).
  assert (PP : 2 ^ (f_bits k - 1) <> 0) by (destruct k; discriminate).
  rewrite MP in H. clear MP. set (m := 2 ^ (f_bits k - 1)) in *. clearbody m.
  assert (D := N.div_mod b m PP).
  assert (Q : b / m < 2) by (apply N.div_lt_upper_bound; lia).
  rewrite (N.mod_small (b / m) 2) in TB by assumption.
  destruct (N.testbit b (f_bits k - 1)); cbn [N.b2n] in TB; rewrite <- TB in D; lia.
Qed.
Lemma digit_str_ne s : digit_str s -> s <> [] /\ forallb is_digit s = true.
Proof. auto. Qed.
Lemma float_text_lit k b : b < 2 ^ f_bits k -> float_lit k false (float_text k b) (canon k b).
Proof.
  intros B. unfold float_text, canon. destruct (f_is_nan k b) eqn:NA.
  - rewrite show_nan, not_integral by (first [assumption|unfold f_is_nan in NA; lia]). rewrite app_nil_r. cbn [andb].
    destruct (f_sign k b).
    + apply (fl_special k s_mNaN (fun k => f_nan k + f_signbit k)). constructor.
    + rewrite N.add_0_r. apply (fl_special k s_NaN f_nan). constructor.
  - cbn [andb app]. unfold f_is_nan in NA. assert (FS := f_split k b B).
    destruct (N.eq_dec (f_abs k b) (f_inf k)) as [EI|NI].
    + rewrite (show_inf k b EI), not_integral by lia. rewrite app_nil_r. rewrite EI in FS. destruct (f_sign k b); rewrite FS.
      * apply (fl_special k s_minf (fun k => f_inf k + f_signbit k)). constructor.
      * rewrite N.add_0_r. apply (fl_special k s_inf f_inf). constructor.
    + assert (FF : f_finite k b) by (split; lia).
      assert (RF := read_finite k b FF). unfold f_point_zero in RF.
      apply fl_num; [|exact RF].
      destruct (show_finite k b FF) as (ds & fs & [DN D] & [FN F] & ->).
      assert (SG : exists neg, sign (if f_sign k b then [c_minus] else []) neg) by (destruct (f_sign k b); eexists; constructor).
      destruct SG as [neg SG]. rewrite <- !app_assoc.
      destruct (f_integral k b); cbn [app].
      * rewrite <- (app_nil_r s_point_zero). eapply nm; [exact SG|assumption|assumption| |constructor].
        apply (fr_some [c_0]); [discriminate|reflexivity].
      * change (c_dot :: fs ++ []) with ((c_dot :: fs) ++ []). eapply nm; [exact SG|assumption|assumption| |constructor]. apply fr_some; assumption.
Qed.

(** ** Identifiers *)
Definition ident_text (n : str) : str := (if needs_raw n then s_rh else []) ++ n.
Lemma emits_identifier n : valid_identifier n = true -> emits (write_identifier n) (ident_text n).
Proof.
  intros V. unfold write_identifier, validate_identifier. rewrite V.
  apply (emits_seq _ _ []); [apply emits_ret|]; apply emits_seq; [apply emits_if; [apply emits_write|apply emits_ret]|apply emits_write].
Qed.
Lemma ident_text_lit n : valid_identifier n = true -> ident_lit (ident_text n) n.
Proof.
  intros V. unfold ident_text. unfold valid_identifier in V. apply andb_prop in V as [NE V].
  destruct (needs_raw n) eqn:NR.
  - apply id_raw; [now destruct n|assumption].
  - destruct n as [|c n]; [discriminate|]. cbn [needs_raw] in NR. cbn [app].
    apply orb_false_elim in NR as [NR _]. apply orb_false_elim in NR as [N1 N2].
    apply id_plain; [now destruct (is_ident_first_char c)|now destruct (forallb xid_continue n)].
Qed.
Lemma identifier_refused n s : valid_identifier n = false -> write_identifier n s = SErr (EInvalidIdentifier n) s.
Proof. intros V. unfold write_identifier, validate_identifier, sbind. now rewrite V. Qed.

(** ** Headers *)
Definition ws_str (s : str) : Prop := forallb is_ws_char s = true.
Definition valid_config : Prop :=
  match cfg with None => True | Some p => ws_str (p_new_line p) /\ ws_str (p_indentor p) /\ ws_str (p_separator p) end.
Lemma ws_str_layout s : ws_str s -> layout s.
Proof. intros H. apply layout_spaces, Forall_forall. intros c IN. now apply (proj1 (forallb_forall _ _) H). Qed.
Fixpoint exts_all (l : list exts) : exts := match l with [] => exts_empty | e :: l' => exts_or e (exts_all l') end.
Context {X : XidOk E}.
Lemma extension_ident n e : extension_name n e -> ident_lit n n.
Proof.
  destruct 1; apply id_plain; cbn; unfold is_ident_first_char;
    rewrite ?xid_start_ascii, ?xid_continue_ascii by lia; reflexivity.
Qed.
Lemma emits_headers p names es : ws_str (p_new_line p) -> Forall2 extension_name names es ->
  exists a, emits (write_headers p names) a /\ attrs_text a (exts_all es).
Proof.
  intros W. induction 1 as [|n e names es N F (a & EA & HA)]; cbn [write_headers exts_all].
  - exists []. split; [apply emits_ret|constructor].
  - exists ((s_enable_open ++ n ++ s_enable_close) ++ p_new_line p ++ a). split.
    + repeat (apply emits_seq || apply emits_write || assumption).
    + apply as_cons; [|now apply ws_str_layout|assumption].
      assert (X1 : ext_list n e) by (rewrite <- (app_nil_r n); eapply xl_last; [eapply extension_ident; eassumption|eassumption|constructor]).
      exact (at_enable [] [] [] [] [] n e [] l_nil l_nil l_nil l_nil l_nil l_nil X1).
Qed.
Lemma ext_names_meaning e : exists es, Forall2 extension_name (ext_names e) es /\ exts_all es = e.
Proof.
  destruct e as [[|] [|] [|] [|]]; cbn; eexists; (split; [repeat constructor|reflexivity]).
Qed.
Lemma emits_new : valid_config -> exists a e, emits (ser_new o cfg) a /\ attrs_text a e /\
  exts_or e (o_exts o) = extensions o cfg.
Proof.
  unfold valid_config, ser_new, extensions. destruct cfg as [p|].
  - intros (W1 & W2 & W3). unfold ws_str in *. rewrite W1, W2, W3. cbn [negb].
    destruct (ext_names_meaning (exts_minus (p_extensions p) (o_exts o))) as (es & F & EQ).
    destruct (emits_headers p _ es W1 F) as (a & EA & HA). exists a, (exts_all es). repeat split; auto.
    rewrite EQ. destruct (p_extensions p) as [[|] [|] [|] [|]], (o_exts o) as [[|] [|] [|] [|]]; reflexivity.
  - intros _. exists [], exts_empty. split; [apply emits_ret|]. split; [constructor|].
    destruct (o_exts o) as [[|] [|] [|] [|]]; reflexivity.
Qed.
Lemma new_refused cap : ~ valid_config -> ser_new o cfg (ser_init o cfg cap) = SErr EMessage (ser_init o cfg cap).
Proof.
  unfold valid_config, ser_new, ws_str. destruct cfg as [p|]; [|tauto]. intros N.
  destruct (forallb is_ws_char (p_new_line p)), (forallb is_ws_char (p_indentor p)), (forallb is_ws_char (p_separator p));
    try reflexivity. tauto.
Qed.

(** ** Documents *)
Lemma to_string_emits v t : valid_config -> emits (ser o cfg v) t ->
  exists a e, to_string o cfg v = inl (a ++ t) /\ attrs_text a e /\ exts_or e (o_exts o) = extensions o cfg.
Proof.
  intros V EM. destruct (emits_new V) as (a & e & EA & HA & EX). exists a, e. split; [|auto].
  assert (ES := emits_seq _ _ _ _ EA EM). unfold to_string, to_writer. rewrite ES by reflexivity. reflexivity.
Qed.
End Config.
End WithEnv.
