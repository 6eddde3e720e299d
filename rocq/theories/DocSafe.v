(** Consequences of safety for whole documents. *)
From Coq Require Import String Ascii NArith ZArith Lia Bool List.
From Coq Require Import ZifyBool ZifyNat ZifyN.
From Verif Require Import Base Facts Value Data Parse De Span Wp EnvOk LexSafe DeSafe Fuel Layout LexWs.
Import ListNotations.
Open Scope N_scope.
Open Scope list_scope.
Open Scope m_scope.

Lemma upto_app p r : upto (p ++ r) r = Some p.
Proof.
  unfold upto. rewrite blen_app. replace (Nat.leb _ _) with true by lia.
  replace (_ - _)%nat with (blen p) by lia. apply btake_app.
Qed.
Lemma upto_suf T r : suf r T -> exists p, T = p ++ r /\ upto T r = Some p.
Proof. intros [p ->]. exists p. split; [reflexivity|apply upto_app]. Qed.
Lemma span_of_inv T s : inv T s -> exists a b,
  suf (prev s) T /\ suf (rest s) T /\ upto T (prev s) = Some a /\ upto T (rest s) = Some b /\
  span_error T s = Some (from_src_end a, from_src_end b).
Proof.
  intros I. assert (R := inv_rest _ _ I). destruct I as (_ & _ & P). unfold span_error.
  destruct (upto_suf _ _ P) as (a & _ & Ha), (upto_suf _ _ R) as (b & _ & Hb).
  exists a, b. rewrite Ha, Hb. auto.
Qed.

Section WithEnv.
Context {E : Env} {X : XidOk E}.

(** the part of a document up to the end of the value *)
Definition head {A} (o : opts) (m : M A) : M A :=
  parser_new ;;;
  modify (fun s => set_lim (o_limit o) (set_ext (exts_or (ext s) (o_exts o)) s)) ;;;
  m.

Lemma document_head {A} (o : opts) (m : M A) s :
  document o m s = (v <- head o m ;; de_end ;;; ret v) s.
Proof.
  unfold document, head, bind, modify. destruct (parser_new s); reflexivity.
Qed.

Lemma le_document {A} o (m m' : M A) : le_m m m' -> le_m (document o m) (document o m').
Proof.
  intros H. unfold document. apply le_bind; [apply le_refl|]. intros _.
  apply le_bind; [apply le_refl|]. intros _. apply le_bind; [exact H|]. intros. apply le_refl.
Qed.
Lemma le_head {A} o (m m' : M A) : le_m m m' -> le_m (head o m) (head o m').
Proof.
  intros H. unfold head. apply le_bind; [apply le_refl|]. intros _.
  apply le_bind; [apply le_refl|]. intros _. exact H.
Qed.

(** ** Outcomes of typed documents, for every fuel *)
Section Typed.
Variable tenv : nat -> ty.

Lemma doc_bot o f t text : wp (document o (de_bot tenv f t))
  (fun _ s' => inv text s' /\ rest s' = [] /\ lim s' = o_limit o) (fun _ s' => inv text s') (init_state text).
Proof.
  apply wp_document. intros s I _.
  apply (de_bot_safe tenv text f (length (rest s)) true t (lim s)); [assumption|].
  split; [lia|]. split; [discriminate|reflexivity].
Qed.
Lemma doc_outcome o f t text :
  match from_str o (de_ty tenv f t) text with
  | Ok _ s' => inv text s' /\ rest s' = [] /\ lim s' = o_limit o
  | Err _ s' => inv text s'
  | Panic => False
  | OutOfFuel => True
  end.
Proof.
  unfold from_str. assert (W := doc_bot o f t text). Transparent wp. unfold wp in W. Opaque wp.
  destruct (le_document o _ _ (de_ty_bot tenv f t) (init_state text)) as [-> | ->]; [exact Logic.I|].
  destruct (document o (de_bot tenv f t) (init_state text)); tauto.
Qed.

(** a successful or failed typed read only moves forward *)
Lemma typed_step T f t s : inv T s ->
  match de_ty tenv f t s with
  | Ok _ s' => dok T s s'
  | Err _ s' => derr T s s'
  | Panic => False
  | OutOfFuel => True
  end.
Proof.
  intros I.
  assert (W : wp (de_bot tenv f t) (fun _ s' => dok T s s') (fun _ s' => derr T s s') s).
  { apply (de_bot_safe tenv T f (length (rest s)) true t (lim s)); [assumption|].
    split; [lia|]. split; [discriminate|reflexivity]. }
  Transparent wp. unfold wp in W. Opaque wp.
  destruct (de_ty_bot tenv f t s) as [-> | ->]; [exact Logic.I|destruct (de_bot tenv f t s); auto].
Qed.

Lemma no_panic o f t text : options_from_str o (de_ty tenv f t) text <> RPanic.
Proof.
  unfold options_from_str, spanned. assert (D := doc_outcome o f t text).
  destruct (from_str _ _ _) as [a s'|e s'| |]; try discriminate; [|contradiction].
  destruct (span_of_inv _ _ D) as (a & b & _ & _ & _ & _ & ->). discriminate.
Qed.

Lemma doc_terminates o f t text :
  (forall s, inv text s -> lim s = o_limit o -> wp (de_ty tenv f t) (fun _ s' => dok text s s') (fun _ s' => derr text s s') s) ->
  options_from_str o (de_ty tenv f t) text <> RDiverges.
Proof.
  intros H. unfold options_from_str, spanned, from_str.
  assert (W := wp_document o (de_ty tenv f t) text H).
  Transparent wp. unfold wp in W. Opaque wp.
  destruct (document _ _ _); try discriminate; try contradiction.
  destruct (span_error _ _); discriminate.
Qed.
Lemma limited_terminates o l f t text : productive tenv -> o_limit o = Some l -> (2 * l + 2 <= f)%nat ->
  options_from_str o (de_ty tenv f t) text <> RDiverges.
Proof.
  intros P L F. apply doc_terminates. intros s I HL.
  apply (de_ty_safe tenv text f t (Some l) (length (rest s)) true); [now apply fuel_limited|assumption|].
  split; [lia|]. split; [discriminate|congruence].
Qed.
Lemma guarded_terminates o rank K f t text : guarded tenv rank K -> (cmax rank t <= K)%nat ->
  ((2 * length text + 2) * S K <= f)%nat ->
  options_from_str o (de_ty tenv f t) text <> RDiverges.
Proof.
  intros G C F. apply doc_terminates. intros s I HL.
  assert (Y := suf_length _ _ (inv_rest _ _ I)). assert (Z : (cdepth rank t <= S (cmax rank t))%nat) by (destruct t; cbn [cdepth cmax]; lia).
  apply (de_guarded_safe tenv rank text K G f (length (rest s)) true t (lim s)); [|assumption|].
  - split; [assumption|]. nia.
  - split; [lia|]. split; [discriminate|reflexivity].
Qed.
Lemma ranked_terminates o rank f t text : ranked tenv rank -> (tdepth rank t <= f)%nat ->
  options_from_str o (de_ty tenv f t) text <> RDiverges.
Proof.
  intros R F. apply doc_terminates. intros s I HL.
  apply (de_ty_safe tenv text f t (lim s) (length (rest s)) true); [now apply fuel_ranked with rank|assumption|].
  split; [lia|]. split; [discriminate|reflexivity].
Qed.

(** more fuel changes nothing *)
Lemma fuel_stable o f f' t text : (f <= f')%nat -> options_from_str o (de_ty tenv f t) text <> RDiverges ->
  options_from_str o (de_ty tenv f' t) text = options_from_str o (de_ty tenv f t) text.
Proof.
  intros L. unfold options_from_str, from_str.
  destruct (le_document o _ _ (de_ty_le tenv f f' t L) (init_state text)) as [H|H]; rewrite H; [|reflexivity].
  cbn. congruence.
Qed.
End Typed.

Lemma any_outcome o text :
  match from_str o any_value text with
  | Ok _ s' => inv text s' /\ rest s' = []
  | Err _ s' => inv text s'
  | Panic | OutOfFuel => False
  end.
Proof.
  unfold from_str.
  assert (W : wp (document o any_value) (fun _ s' => inv text s' /\ rest s' = [] /\ lim s' = o_limit o)
                 (fun _ s' => inv text s') (init_state text)).
  { apply wp_document. intros s I _. now apply (safe_any_value text (fun _ => True)). }
  Transparent wp. unfold wp in W. Opaque wp. destruct (document _ _ _); tauto.
Qed.
Lemma any_no_panic o text : options_from_str o any_value text <> RPanic.
Proof.
  unfold options_from_str, spanned. assert (D := any_outcome o text).
  destruct (from_str _ _ _) as [a s'|e s'| |]; try discriminate; try contradiction.
  destruct (span_of_inv _ _ D) as (a & b & _ & _ & _ & _ & ->). discriminate.
Qed.
Lemma any_terminates o text : options_from_str o any_value text <> RDiverges.
Proof.
  unfold options_from_str, spanned. assert (D := any_outcome o text).
  destruct (from_str _ _ _) as [a s'|e s'| |]; try discriminate; try contradiction.
  destruct (span_error _ _); discriminate.
Qed.

Lemma from_bytes_no_panic {A} o (m : M A) : (forall text, options_from_str o m text <> RPanic) ->
  forall bs, options_from_bytes o m bs <> RPanic.
Proof.
  intros H bs. unfold options_from_bytes. destruct (dec_prefix bs) as [text [|]]; [apply H|discriminate].
Qed.
Lemma from_reader_no_panic {A} o (m : M A) : (forall text, options_from_str o m text <> RPanic) ->
  forall bs io, options_from_reader o m bs io <> RPanic.
Proof.
  intros H bs []; cbn; [discriminate|]. now apply from_bytes_no_panic.
Qed.

(** ** The end of the document *)

Lemma wp_skip_ws_final T s w : inv T s -> final_layout w -> rest s = w ->
  wp skip_ws (fun _ s' => rest s' = [] /\ adv T s s') (fun _ _ => False) s.
Proof.
  intros I [L|(w' & t & L & NN & ->)] Hs.
  { apply wp_skip_ws with w; auto; [now rewrite app_nil_r|exact Logic.I]. }
  unfold skip_ws. apply wp_bind, wp_modify.
  assert (A := track_ws_adv T s I). assert (R0 := track_ws_rest s). set (s1 := track_ws s) in *.
  eapply wp_bind_ok; [reflexivity|].
  destruct (rest s1) as [|c l] eqn:HR.
  { rewrite <- R0 in Hs. destruct w'; discriminate. }
  rewrite <- HR in *. apply wp_bind.
  eapply ws_loop_passes with (T := T) (w := w') (r := c_slash :: c_slash :: t) (n := length w');
    [lia|exact L|reflexivity|apply A|now rewrite R0|lia|].
  intros f' s2 _ R2 A2. unfold after_ws. apply wp_bind. unfold skip_comment. apply wp_bind.
  eapply wp_ok; [rewrite consume_char_eq, R2; reflexivity|].
  set (s3 := moved _ _). cbv iota. eapply wp_bind_ok; [reflexivity|].
  change (47 =? 47) with true. cbv iota. set (s4 := set_rest _ _).
  assert (A4 : adv T s2 s4).
  { eapply adv_trans; [apply adv_moved; [apply A2|]|apply adv_set_rest].
    - rewrite R2. now exists [c_slash].
    - apply inv_moved; [apply A2|]. rewrite R2. now exists [c_slash].
    - cbn. now exists [c_slash]. }
  eapply wp_bind_ok; [apply next_while_eq|].
  eapply wp_bind_ok; [apply advance_while|].
  assert (DW : dropwhile (fun c => negb (c =? 10)) (rest s4) = []).
  { cbn [rest s4]. replace (rest s4) with (t ++ []) by (cbn; now rewrite app_nil_r).
    apply dropwhile_app; [now apply no_newline_forallb|exact Logic.I]. }
  rewrite DW. eapply wp_bind_ok; [reflexivity|]. cbn [rest moved set_rest]. apply wp_ret. cbv iota.
  apply wp_ret. cbn. apply wp_modify. cbn. split; [reflexivity|].
  assert (A5 : adv T s4 (moved [] s4)) by (apply adv_moved; [apply A4|apply suf_nil]).
  assert (A6 := adv_trans _ _ _ _ A (adv_trans _ _ _ _ A2 (adv_trans _ _ _ _ A4 A5))).
  exact A6.
Qed.

Lemma de_end_iff T s : inv T s ->
  match de_end s with
  | Ok _ s' => final_layout (rest s)
  | Err _ s' => ~ final_layout (rest s) /\ inv T s'
  | _ => False
  end.
Proof.
  intros I. unfold de_end.
  assert (TOT := total_skip_ws T s I).
  Transparent wp. unfold wp in TOT. Opaque wp. unfold bind, src.
  destruct (skip_ws s) as [[] s1|e s1| |] eqn:SW; try contradiction.
  - destruct (skip_ws_sound _ _ SW) as (w & Hw & C). destruct (rest s1) as [|c r] eqn:R1.
    + rewrite app_nil_r in Hw. unfold ret. rewrite Hw. destruct C as [[L _]|[_ F]]; [now left|exact F].
    + unfold fail. split; [|apply TOT]. intros F.
      assert (W := wp_skip_ws_final T s (rest s) I F eq_refl).
      Transparent wp. unfold wp in W. Opaque wp. rewrite SW in W. destruct W as [W _]. congruence.
  - split; [|apply TOT]. intros F. assert (W := wp_skip_ws_final T s (rest s) I F eq_refl).
    Transparent wp. unfold wp in W. Opaque wp. now rewrite SW in W.
Qed.

(** what becomes of a document once its value is read *)
Lemma document_end {A} o (m : M A) text a s : inv text s -> head o m (init_state text) = Ok a s ->
  (final_layout (rest s) -> options_from_str o m text = RValue a) /\
  (~ final_layout (rest s) -> exists e sp, options_from_str o m text = RError e sp).
Proof.
  intros I H. unfold options_from_str, from_str, spanned. rewrite document_head.
  unfold bind. rewrite H. assert (D := de_end_iff text s I).
  destruct (de_end s) as [[] s'|e s'| |]; try contradiction.
  - split; [reflexivity|]. intros N. contradiction.
  - destruct D as [D I']. destruct (span_of_inv _ _ I') as (x & y & _ & _ & _ & _ & ->).
    split; [contradiction|]. intros _. eexists _, _. reflexivity.
Qed.
Lemma document_end_unclosed {A} o (m : M A) text a s w b : inv text s ->
  head o m (init_state text) = Ok a s -> rest s = w ++ c_slash :: c_star :: b -> layout w -> unclosed b ->
  exists sp, options_from_str o m text = RError EUnclosedBlockComment sp.
Proof.
  intros I H Hs L U. unfold options_from_str, from_str, spanned. rewrite document_head.
  unfold bind at 1. rewrite H. unfold de_end.
  assert (W := wp_skip_ws_unclosed text s w b I L Hs U). assert (TOT := total_skip_ws text s I).
  Transparent wp. unfold wp in W, TOT. Opaque wp. unfold bind.
  destruct (skip_ws s) as [[] s'|e s'| |]; try contradiction. subst e.
  destruct (span_of_inv _ _ (proj1 TOT)) as (x & y & _ & _ & _ & _ & ->). eexists. reflexivity.
Qed.
Lemma document_start_unclosed {A} o (m : M A) w b : layout w -> unclosed b ->
  exists sp, options_from_str o m (w ++ c_slash :: c_star :: b) = RError EUnclosedBlockComment sp.
Proof.
  intros L U. set (text := w ++ _). unfold options_from_str, from_str, spanned, document, parser_new.
  assert (I : inv text (init_state text)) by apply inv_init.
  assert (W := wp_skip_ws_unclosed text _ w b I L eq_refl U). assert (TOT := total_skip_ws text _ I).
  Transparent wp. unfold wp in W, TOT. Opaque wp. unfold bind.
  destruct (skip_ws (init_state text)) as [[] s'|e s'| |]; try contradiction. subst e.
  destruct (span_of_inv _ _ (proj1 TOT)) as (x & y & _ & _ & _ & _ & ->). eexists. reflexivity.
Qed.

(** conversely a value only results from a read value followed by layout *)
Lemma document_value {A} o (m : M A) text a :
  (forall s, inv text s -> match m s with Ok _ s' => inv text s' | _ => True end) ->
  options_from_str o m text = RValue a ->
  exists s, head o m (init_state text) = Ok a s /\ suf (rest s) text /\ final_layout (rest s).
Proof.
  intros HM. unfold options_from_str, from_str, spanned. rewrite document_head. unfold bind at 1.
  assert (HI : match head o m (init_state text) with Ok _ s' => inv text s' | _ => True end).
  { unfold head, bind, modify. assert (W := parser_new_total text _ (inv_init text)).
    Transparent wp. unfold wp in W. Opaque wp. destruct (parser_new _) as [[] s'|e s'| |]; auto.
    apply HM. apply W. }
  destruct (head _ _ _) as [a' s|e s| |]; try discriminate; [|destruct (span_error _ _); discriminate].
  assert (D := de_end_iff text s HI). unfold bind.
  destruct (de_end s) as [[] s'|e s'| |]; try contradiction; cbn.
  - intros [= ->]. exists s. split; [reflexivity|]. split; [now apply inv_rest|assumption].
  - destruct (span_error _ _); discriminate.
Qed.

(** ** Spans *)
Definition span_inside (text : str) (sp : span) : Prop :=
  exists i j, (i <= length text)%nat /\ (j <= length text)%nat /\
    sp = (from_src_end (firstn i text), from_src_end (firstn j text)).
Lemma firstn_suf p (r : str) : firstn (length p) (p ++ r) = p.
Proof. rewrite firstn_app, Nat.sub_diag, firstn_all. cbn. apply app_nil_r. Qed.
Lemma span_error_inside text s sp : inv text s -> span_error text s = Some sp -> span_inside text sp.
Proof.
  intros I. unfold span_error. assert (R := inv_rest _ _ I). destruct I as (_ & _ & P).
  destruct (upto_suf _ _ P) as (a & Ea & Ha), (upto_suf _ _ R) as (b & Eb & Hb). rewrite Ha, Hb.
  intros [= <-]. exists (length a), (length b).
  split; [rewrite Ea, app_length; lia|]. split; [rewrite Eb, app_length; lia|].
  rewrite Ea at 1. rewrite firstn_suf. rewrite Eb at 1. now rewrite firstn_suf.
Qed.
Lemma typed_span tenv o f t text e sp :
  options_from_str o (de_ty tenv f t) text = RError e sp -> span_inside text sp.
Proof.
  unfold options_from_str, spanned. assert (D := doc_outcome tenv o f t text).
  destruct (from_str _ _ _) as [a s'|e' s'| |]; try discriminate.
  destruct (span_error text s') as [sp'|] eqn:Q; [|discriminate].
  intros [= _ <-]. now apply span_error_inside with s'.
Qed.
Lemma any_span o text e sp : options_from_str o any_value text = RError e sp -> span_inside text sp.
Proof.
  unfold options_from_str, spanned. assert (D := any_outcome o text).
  destruct (from_str _ _ _) as [a s'|e' s'| |]; try discriminate.
  destruct (span_error text s') as [sp'|] eqn:Q; [|discriminate].
  intros [= _ <-]. now apply span_error_inside with s'.
Qed.

Lemma typed_inv tenv f t text s : inv text s ->
  match de_ty tenv f t s with Ok _ s' => inv text s' | _ => True end.
Proof.
  intros I. assert (W := typed_step tenv text f t s I). destruct (de_ty _ _ _ _); auto. apply W.
Qed.
Lemma typed_whole tenv o f t text v : options_from_str o (de_ty tenv f t) text = RValue v ->
  exists s, head o (de_ty tenv f t) (init_state text) = Ok v s /\
    suf (rest s) text /\ final_layout (rest s).
Proof. apply document_value. intros s. apply typed_inv. Qed.
Lemma head_inv tenv o f t text v s :
  head o (de_ty tenv f t) (init_state text) = Ok v s -> inv text s.
Proof.
  unfold head, bind, modify. assert (W := parser_new_total text _ (inv_init text)).
  Transparent wp. unfold wp in W. Opaque wp. destruct (parser_new _) as [[] s'|e s'| |]; try discriminate.
  intros H. match type of H with de_ty _ _ _ ?s0 = _ => assert (Y := typed_inv tenv f t text s0) end.
  rewrite H in Y. apply Y. apply W.
Qed.
Lemma typed_trailing tenv o f t text v s :
  head o (de_ty tenv f t) (init_state text) = Ok v s ->
  (final_layout (rest s) -> options_from_str o (de_ty tenv f t) text = RValue v) /\
  (~ final_layout (rest s) -> exists e sp, options_from_str o (de_ty tenv f t) text = RError e sp).
Proof. intros H. eapply document_end; [eapply head_inv|]; exact H. Qed.

Lemma typed_left_to_right tenv f t text s : inv text s ->
  match de_ty tenv f t s with
  | Ok _ s' | Err _ s' => inv text s' /\ exists consumed, rest s = consumed ++ rest s'
  | Panic => False
  | OutOfFuel => True
  end.
Proof.
  intros I. assert (W := typed_step tenv text f t s I).
  destruct (de_ty _ _ _ _); auto; destruct W as (W1 & W2 & _); split; assumption.
Qed.

Lemma skip_ws_layout T s w r : inv T s -> rest s = w ++ r -> layout w -> solid r ->
  exists s', skip_ws s = Ok tt s' /\ rest s' = r.
Proof.
  intros I Hs L SO. assert (W := wp_skip_ws T s w r I Hs L SO). Transparent wp. unfold wp in W. Opaque wp.
  destruct (skip_ws s) as [[] s'|e s'| |]; try contradiction. exists s'. split; [reflexivity|apply W].
Qed.
Lemma skip_ws_final T s : inv T s -> final_layout (rest s) -> exists s', skip_ws s = Ok tt s' /\ rest s' = [].
Proof.
  intros I L. assert (W := wp_skip_ws_final T s _ I L eq_refl). Transparent wp. unfold wp in W. Opaque wp.
  destruct (skip_ws s) as [[] s'|e s'| |]; try contradiction. exists s'. split; [reflexivity|apply W].
Qed.
Lemma skip_ws_unclosed T s w b : inv T s -> layout w -> rest s = w ++ c_slash :: c_star :: b -> unclosed b ->
  exists s', skip_ws s = Err EUnclosedBlockComment s'.
Proof.
  intros I L Hs U. assert (W := wp_skip_ws_unclosed T s w b I L Hs U). Transparent wp. unfold wp in W. Opaque wp.
  destruct (skip_ws s) as [[] s'|e s'| |]; try contradiction. subst. eauto.
Qed.
Lemma typed_end_unclosed tenv f t o text v s w b : head o (de_ty tenv f t) (init_state text) = Ok v s ->
  rest s = w ++ c_slash :: c_star :: b -> layout w -> unclosed b ->
  exists sp, options_from_str o (de_ty tenv f t) text = RError EUnclosedBlockComment sp.
Proof. intros H. eapply document_end_unclosed; [eapply head_inv|]; exact H. Qed.

(** the tokens of the parser *)
Inductive forward_token : forall A, M A -> Prop :=
  | ft_ws : forward_token unit skip_ws
  | ft_comma : forward_token bool comma
  | ft_char c : forward_token bool (consume_char c)
  | ft_str p : forward_token bool (consume_str p)
  | ft_ident w : forward_token bool (consume_ident w)
  | ft_name n : forward_token bool (consume_struct_name n)
  | ft_identifier : forward_token str identifier
  | ft_bool : forward_token bool parse_bool
  | ft_integer t : forward_token (ik * Z) (integer t)
  | ft_float t : forward_token (fk * N) (float t)
  | ft_number : forward_token num any_number
  | ft_chr : forward_token char parse_char
  | ft_string : forward_token str parse_string
  | ft_bytes : forward_token bytes byte_string
  | ft_struct a b : forward_token struct_type (check_struct_type a b).

Lemma token_left_to_right text s : inv text s -> forall A (m : M A), forward_token A m ->
  match m s with
  | Ok _ s' | Err _ s' => inv text s' /\ exists consumed, rest s = consumed ++ rest s'
  | _ => False
  end.
Proof.
  intros I A m F.
  assert (TOT : total m).
  { destruct F; auto using total_skip_ws, total_comma, total_consume_char, total_consume_str,
      total_consume_ident, total_consume_struct_name, eats_total, identifier_eats, total_parse_bool, total_integer,
      total_float, total_any_number, total_parse_char, total_parse_string, total_byte_string, total_check_struct_type. }
  specialize (TOT text s I). Transparent wp. unfold wp in TOT. Opaque wp.
  destruct (m s); auto; destruct TOT as (W1 & W2 & _); split; assumption.
Qed.

End WithEnv.

(** asking for a Value is reading the text without a type and normalizing *)
Lemma any_document {E : Env} T f o text v s :
  from_str o (de_ty T (S f) TAny) text = Ok v s ->
  exists x s', from_str o any_value text = Ok x s' /\ v = embed (norm x).
Proof.
  unfold from_str, document. cbn [de_ty de_step]. unfold bind, modify, ret.
  destruct (parser_new (init_state text)) as [u s1| | |]; try discriminate.
  set (s2 := set_lim _ _). destruct (any_value s2) as [x s3| | |]; try discriminate.
  destruct (de_end s3) as [u' s4| | |]; try discriminate. intros [= <- <-]. eauto.
Qed.
