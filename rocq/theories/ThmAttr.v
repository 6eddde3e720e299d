(** C12, C13, C41, C42: extensions, attributes, configuration and options. *)
From Coq Require Import String Ascii NArith ZArith Lia Bool List.
From Coq Require Import ZifyBool ZifyNat ZifyN.
From Verif Require Import Base Facts Value Data Parse De Span Ser Opt Wp EnvOk LexSafe Layout Lit Attr ShowFacts LexWs LexRead DocSafe DocRead SerLex LexDoc Toy.
Import ListNotations.
Open Scope N_scope.
Open Scope list_scope.
Open Scope m_scope.

(** what the deserializer starts from: the remaining text and the extensions;
    [None] if the attributes are refused *)
Definition after_header {E : Env} (o : opts) (text : str) : option (str * exts) :=
  match head o get (init_state text) with Ok s _ => Some (rest s, ext s) | _ => None end.

Lemma header_read {E : Env} {X : XidOk E} o w a e body : layout w -> attrs_text a e -> value_start body ->
  after_header o (w ++ a ++ body) = Some (body, exts_or e (o_exts o)).
Proof.
  intros L HA V. unfold after_header, head, bind, get, modify.
  assert (W := wp_parser_new w a e body _ _ L HA V (init_inv (w ++ a ++ body)) eq_refl).
  Transparent wp. unfold wp in W. Opaque wp. destruct (parser_new _) as [[] s|e' s| |]; try contradiction.
  destruct W as (_ & R & EX & _). cbn. rewrite R, EX. cbn. now rewrite exts_empty_or.
Qed.
Lemma header_bad {E : Env} {X : XidOk E} {A} o (m : M A) w a e w1 w2 w3 w4 w5 l b : layout w -> attrs_text a e ->
  layout w1 -> layout w2 -> layout w3 -> layout w4 -> layout w5 -> bad_ext_list l b ->
  exists sp, options_from_str o m (w ++ a ++ ([c_hash] ++ w1 ++ lit "!" ++ w2 ++ lit "[" ++ w3 ++ lit "enable" ++ w4 ++ lit "(" ++ w5 ++ l)) =
    RError (ENoSuchExtension b) sp.
Proof.
  intros L HA L1 L2 L3 L4 L5 HB. set (text := w ++ _).
  assert (W := wp_parser_new_bad w a e w1 w2 w3 w4 w5 l b text _ L HA L1 L2 L3 L4 L5 HB (init_inv text) eq_refl).
  assert (W2 := parser_new_total text _ (inv_init text)).
  assert (W3 := wp_and _ _ _ _ _ _ W W2). clear W W2.
  unfold options_from_str, from_str, document, spanned, bind.
  Transparent wp. unfold wp in W3. Opaque wp. destruct (parser_new _) as [[] s|e' s| |]; try tauto.
  destruct W3 as (-> & I). destruct (span_of_inv text s) as (x & y & _ & _ & _ & _ & ->); [|eauto].
  apply I.
Qed.

(** ** C13 *)
Theorem C13_attributes : forall {E : Env} {X : XidOk E} o w a e body,
  layout w -> attrs_text a e -> value_start body ->
  after_header o (w ++ a ++ body) = Some (body, exts_or e (o_exts o)).
Proof. exact (fun E X => header_read). Qed.
Print Assumptions C13_attributes.

Theorem C13_unknown_extension : forall {E : Env} {X : XidOk E} A o (m : M A) w a e w1 w2 w3 w4 w5 l b,
  layout w -> attrs_text a e ->
  layout w1 -> layout w2 -> layout w3 -> layout w4 -> layout w5 -> bad_ext_list l b ->
  exists sp, options_from_str o m
    (w ++ a ++ ([c_hash] ++ w1 ++ lit "!" ++ w2 ++ lit "[" ++ w3 ++ lit "enable" ++ w4 ++ lit "(" ++ w5 ++ l)) =
    RError (ENoSuchExtension b) sp.
Proof. exact (fun E X A => header_bad). Qed.
Print Assumptions C13_unknown_extension.

(** the union does not depend on order, grouping and repetition *)
Theorem C13_union : forall a b c,
  exts_or a b = exts_or b a /\ exts_or (exts_or a b) c = exts_or a (exts_or b c) /\ exts_or a a = a /\
  (x_implicit_some (exts_or a b) = x_implicit_some a || x_implicit_some b) /\
  (x_unwrap_newtypes (exts_or a b) = x_unwrap_newtypes a || x_unwrap_newtypes b) /\
  (x_unwrap_variant_newtypes (exts_or a b) = x_unwrap_variant_newtypes a || x_unwrap_variant_newtypes b) /\
  (x_explicit_struct_names (exts_or a b) = x_explicit_struct_names a || x_explicit_struct_names b).
Proof.
  intros [[|] [|] [|] [|]] [[|] [|] [|] [|]] [[|] [|] [|] [|]]; repeat split.
Qed.
Print Assumptions C13_union.

Definition attr_sample : str :=
  lit "#![enable(implicit_some, unwrap_newtypes,)] #![type = " ++ [c_dq] ++ lit "T" ++ [c_dq] ++ lit "]".
Example C13_example : @attrs_text Toy attr_sample (Exts true true false false) /\
  @after_header Toy opts_default (attr_sample ++ lit "5") = Some (lit "5", Exts true true false false).
Proof.
  split; [|vm_compute; reflexivity].
  apply (as_cons (lit "#![enable(implicit_some, unwrap_newtypes,)]") (Exts true true false false) (lit " ")
           (lit "#![type = " ++ [c_dq] ++ lit "T" ++ [c_dq] ++ lit "]") exts_empty).
  - apply (at_enable [] [] [] [] [] (lit "implicit_some, unwrap_newtypes,") (Exts true true false false) []); try constructor.
    apply (xl_more (lit "implicit_some") (lit "implicit_some") (Exts false true false false) [] (lit " ") (lit "unwrap_newtypes,") (Exts true false false false));
      [now apply id_plain|constructor|constructor|repeat constructor|].
    apply (xl_comma (lit "unwrap_newtypes") (lit "unwrap_newtypes") (Exts true false false false) [] []); try constructor; reflexivity.
  - repeat constructor.
  - rewrite <- (app_nil_r (lit "#![type = " ++ _)).
    apply (as_cons _ exts_empty [] [] exts_empty); [|constructor|constructor].
    apply (at_other [] [] [] (lit "type") (lit " ") (lit " ") ([c_dq] ++ lit "T" ++ [c_dq]) (lit "T") []);
      [repeat constructor|repeat constructor|repeat constructor|repeat constructor|repeat constructor|repeat constructor|left; reflexivity|].
    apply (sl_quoted (lit "T") (lit "T")); [repeat constructor|]. apply (q_plain false 84 [] []); [discriminate|discriminate|constructor].
Qed.
Example C13_example_bad : @bad_ext_list Toy (lit "implicit_none)] 5") (lit "implicit_none").
Proof.
  apply (bx_here (lit "implicit_none") (lit "implicit_none") (lit ")] 5")); [now apply id_plain| |repeat split; discriminate].
  intros e H. inversion H.
Qed.

(** ** C12 *)
Theorem C12_headers_round_trip : forall {E : Env} {X : XidOk E} o p,
  valid_config (Some p) ->
  exists a, emits (ser_new o (Some p)) a /\
    forall body, value_start body ->
      after_header o (a ++ body) = Some (body, exts_or (o_exts o) (p_extensions p)).
Proof.
  intros E X o p V. destruct (emits_new o (Some p) V) as (a & e & EM & HA & EX). exists a. split; [assumption|].
  intros body VB. assert (H := header_read o [] a e body l_nil HA VB). cbn in EX. now rewrite EX in H.
Qed.
Print Assumptions C12_headers_round_trip.
(** the header names no extension that the options enable already *)
Theorem C12_headers_minimal : forall {E : Env} {X : XidOk E} o p,
  valid_config (Some p) -> exts_or (o_exts o) (p_extensions p) = o_exts o -> emits (ser_new o (Some p)) [].
Proof.
  intros E X o p (W1 & W2 & W3) H. unfold ser_new, ws_str in *. rewrite W1, W2, W3. cbn [negb].
  replace (exts_minus (p_extensions p) (o_exts o)) with exts_empty; [apply emits_ret|].
  destruct (o_exts o) as [[|] [|] [|] [|]], (p_extensions p) as [[|] [|] [|] [|]]; try reflexivity; discriminate.
Qed.
Print Assumptions C12_headers_minimal.
Definition ext_conf : pconf :=
  PConf None [10; 8232] [32] [32] false false false (Exts true false true true) false true false false false None false.
Example C12_example : valid_config (Some ext_conf) /\ value_start (lit "(5)") /\
  @to_string Toy (Opts (Exts true true false false) None) (Some ext_conf) VUnit =
    inl (lit "#![enable(unwrap_variant_newtypes)]" ++ [10; 8232] ++ lit "#![enable(explicit_struct_names)]" ++ [10; 8232] ++ lit "()").
Proof. repeat split; try reflexivity; discriminate. Qed.

(** ** C41 *)

(** refused before anything is written, whatever the writer and the value *)
Theorem C41_invalid_layout_refused : forall {E : Env} o p cap v,
  (exists c, (In c (p_new_line p) \/ In c (p_indentor p) \/ In c (p_separator p)) /\ is_ws_char c = false) ->
  exists e s, to_writer o (Some p) cap v = SErr e s /\ w_out s = [].
Proof.
  intros E o p cap v (c & IN & NW). unfold to_writer, sbind. rewrite new_refused; [eauto|].
  intros (W1 & W2 & W3). unfold ws_str in *.
  assert (F : forall l, In c l -> forallb is_ws_char l = true -> False).
  { intros l IL H. apply (proj1 (forallb_forall _ _) H) in IL. congruence. }
  destruct IN as [IN|[IN|IN]]; eapply F; eassumption.
Qed.
Print Assumptions C41_invalid_layout_refused.
(** and only such configurations are *)
Theorem C41_valid_layout_accepted : forall {E : Env} {X : XidOk E} o cfg, valid_config cfg ->
  exists a, emits (ser_new o cfg) a.
Proof. intros E X o cfg V. destruct (emits_new o cfg V) as (a & e & EM & _). eauto. Qed.
Print Assumptions C41_valid_layout_accepted.
(** the whitespace characters are those of the grammar (docs/grammar.md) *)
Theorem C41_whitespace : forall c, is_ws_char c = true <->
  In c [9; 10; 11; 12; 13; 32; 133; 8206; 8207; 8232; 8233].
Proof. intros c. unfold is_ws_char. cbn. lia. Qed.
Print Assumptions C41_whitespace.
Example C41_example : @to_string Toy opts_default
  (Some (PConf None (lit "//") [32] [32] false false false exts_empty false true false false false None false)) VUnit = inr EMessage.
Proof. reflexivity. Qed.

(** ** C42 *)

(** one extension flag *)
Inductive flag := FUnwrapNewtypes | FImplicitSome | FUnwrapVariantNewtypes | FExplicitStructNames.
Definition has (f : flag) (e : exts) : bool :=
  match f with
  | FUnwrapNewtypes => x_unwrap_newtypes e | FImplicitSome => x_implicit_some e
  | FUnwrapVariantNewtypes => x_unwrap_variant_newtypes e | FExplicitStructNames => x_explicit_struct_names e
  end.
(** the last call that mentions the flag decides *)
Fixpoint last_mention (f : flag) (calls : list call) (acc : bool) : bool :=
  match calls with
  | [] => acc
  | CWith e :: r => last_mention f r (if has f e then true else acc)
  | CWithout e :: r => last_mention f r (if has f e then false else acc)
  | _ :: r => last_mention f r acc
  end.
Fixpoint last_limit (calls : list call) (acc : option nat) : option nat :=
  match calls with
  | [] => acc
  | CLimit n :: r => last_limit r (Some n)
  | CNoLimit :: r => last_limit r None
  | _ :: r => last_limit r acc
  end.
Lemma build_from calls : forall o,
  (forall f, has f (o_exts (fold_left apply_call calls o)) = last_mention f calls (has f (o_exts o))) /\
  o_limit (fold_left apply_call calls o) = last_limit calls (o_limit o).
Proof.
  induction calls as [|c calls IH]; intros o; cbn [fold_left last_mention last_limit]; [auto|].
  destruct (IH (apply_call o c)) as [H1 H2]. split.
  - intros f. rewrite H1. destruct c as [e|e|n|]; cbn; try reflexivity;
      destruct f, (o_exts o) as [[|] [|] [|] [|]], e as [[|] [|] [|] [|]]; reflexivity.
  - rewrite H2. destruct c; reflexivity.
Qed.
Theorem C42_builder_history : forall calls f,
  has f (o_exts (build calls)) = last_mention f calls false /\
  o_limit (build calls) = last_limit calls (Some 128%nat).
Proof.
  intros calls f. unfold build. destruct (build_from calls opts_default) as [H1 H2].
  split; [rewrite H1; now destruct f|exact H2].
Qed.
Print Assumptions C42_builder_history.
Theorem C42_algebra : forall e e' o,
  with_default_extension e (with_default_extension e o) = with_default_extension e o /\
  without_default_extension e (without_default_extension e o) = without_default_extension e o /\
  with_default_extension e (with_default_extension e' o) = with_default_extension e' (with_default_extension e o) /\
  with_default_extension e (without_default_extension e o) = with_default_extension e o /\
  without_default_extension e (with_default_extension e o) = without_default_extension e o.
Proof.
  intros e e' [x l]. unfold with_default_extension, without_default_extension. cbn.
  destruct e as [[|] [|] [|] [|]], e' as [[|] [|] [|] [|]], x as [[|] [|] [|] [|]]; repeat split.
Qed.
Print Assumptions C42_algebra.
Example C42_example : build [CWith (Exts true true false false); CNoLimit; CWithout (Exts true false false true); CLimit 7]
  = Opts (Exts false true false false) (Some 7%nat).
Proof. reflexivity. Qed.
