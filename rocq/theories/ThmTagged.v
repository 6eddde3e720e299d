(** C55: internally tagged enums. *)
From Coq Require Import String Ascii NArith ZArith Lia Bool List.
From Coq Require Import ZifyBool ZifyNat ZifyN.
From Verif Require Import Base Facts Value Data Parse De Span Ser Wp EnvOk Layout Lit Attr DocSafe DocRead SerLex LexDoc LexSafe DeSafe Inv Limit ThmLimit ThmAny Typing Typed Repr ReprFacts TypedRead RangeSpec SerNum SerWp SerRepr ThmTyped IntoRust Content VRepr AnyRead ContentRead ThmContent ThmInto ThmThrough Buffered ContentWrite ThmUntagged Tagged TaggedSafe TaggedRead TaggedWrite Toy.
Import ListNotations.
Open Scope N_scope.
Open Scope list_scope.
Open Scope m_scope.

(** the values of an internally tagged enum *)
Inductive tagged_val {E : Env} (tenv : nat -> ty) (fok : fk -> N -> Prop) (ename : str) (variants : list (str * ivariant)) : val -> Prop :=
  | tv_unit k : In (k, IUnit) variants -> tagged_val tenv fok ename variants (VUnitVariant ename k)
  | tv_new k T v : In (k, INew T) variants -> typed tenv fok T v -> tagged_val tenv fok ename variants (VNewVariant ename k v)
  | tv_struct k deny fields fs : In (k, IStruct deny fields) variants -> NoDup (map fst fields) -> map fst fs = map fst fields ->
      Forall (fun fv => exists t, In (fst fv, t) fields /\ typed tenv fok t (snd fv)) fs ->
      tagged_val tenv fok ename variants (VStructVariant ename k fs).

Section Proofs.
Context {E : Env} {X : XidOk E} {FO : FloatOk E}.
Lemma opens_start r : opens r -> value_start r.
Proof. intros O. split; [now apply opens_solid|]. destruct r as [|d q]; [exact Logic.I|]. destruct O as [_ O]. intros ->. apply O. cbn. tauto. Qed.
Lemma tagged_start u tag c l t r : tagged_text u tag c l t -> value_start (t ++ r).
Proof.
  intros H. apply opens_start. destruct H as [c tn w l t AN L NE IT|c w l t L IT].
  - rewrite <- app_assoc. cbn [app]. destruct AN as [|ti n w1 IL K L1]; [split; [reflexivity|cbn; intuition discriminate]|].
    rewrite <- app_assoc. now apply ident_opens with n.
  - split; [reflexivity|cbn; intuition discriminate].
Qed.
(** ** C16, C17 *)
Lemma tagged_outcome o tag variants text :
  match from_str o (tagged_any tag variants) text with
  | Ok _ s' => inv text s' /\ rest s' = []
  | Err _ s' => inv text s'
  | Panic | OutOfFuel => False
  end.
Proof.
  unfold from_str.
  assert (W : wp (document o (tagged_any tag variants)) (fun _ s' => inv text s' /\ rest s' = [] /\ lim s' = o_limit o)
                 (fun _ s' => inv text s') (init_state text)).
  { apply wp_document. intros s J _. now apply (tagged_any_safe tag variants text (fun _ => True)). }
  Transparent wp. unfold wp in W. Opaque wp. destruct (document _ _ _); tauto.
Qed.
Theorem C16_no_panic_tagged o tag variants text : options_from_str o (tagged_any tag variants) text <> RPanic.
Proof.
  unfold options_from_str, spanned. assert (D := tagged_outcome o tag variants text).
  destruct (from_str _ _ _) as [a s'|e s'| |]; try discriminate; try contradiction.
  destruct (span_of_inv _ _ D) as (a & b & _ & _ & _ & _ & ->). discriminate.
Qed.
Theorem C17_tagged_terminates o tag variants text : options_from_str o (tagged_any tag variants) text <> RDiverges.
Proof.
  unfold options_from_str, spanned. assert (D := tagged_outcome o tag variants text).
  destruct (from_str _ _ _) as [a s'|e s'| |]; try discriminate; try contradiction.
  destruct (span_error _ _); discriminate.
Qed.

(** ** C55 *)
(** Reading: the tag may stand anywhere among the fields of the struct or map. *)
Theorem C55_read tenv f tag ename variants o c l w0 at0 e t w1 name iv v :
  NoDup (map fst variants) -> In (name, iv) variants -> lefts l = [name] ->
  layout w0 -> attrs_text at0 e -> tagged_text (x_unwrap_variant_newtypes (exts_or e (o_exts o))) tag c l t ->
  final_layout w1 -> room c (o_limit o) -> of_tagged tenv f ename (name, iv) (XMap (rights l)) = CVal v ->
  options_from_str o (de_tagged tenv f tag ename variants) (w0 ++ at0 ++ t ++ w1) = RValue v.
Proof.
  intros ND IV LF L HA TT FL RM CV. eapply document_reads_final; [exact L|exact HA|now apply tagged_start with (1 := TT)|].
  intros T s J Hs He Hn Hl _. unfold de_tagged. apply wp_bind. unfold tagged_any. eapply wp_bind_ok; [reflexivity|]. rewrite Hn.
  eapply wp_conseq; [apply (tr_tagged _ tag variants c l t name iv ND IV LF TT T s w1); auto; [exact Logic.I|now rewrite Hl]| |auto]. cbn beta.
  intros p s' (-> & R). cbn [fst snd]. rewrite CV. apply wp_ret. destruct R as (-> & J' & _). auto.
Qed.

Lemma lefts_one name (es : list (value * value)) : lefts (inl name :: map inr es : list (str + (value * value))) = [name].
Proof. cbn. f_equal. induction es; auto. Qed.
Lemma rights_rest name (es : list (value * value)) : rights (inl name :: map inr es : list (str + (value * value))) = es.
Proof. cbn. induction es as [|a es IH]; [reflexivity|]. cbn. f_equal. exact IH. Qed.
(** What is written for a value of the enum comes back.  [restricted] and
    [untagged_keys] are about the value with its tag, [w]. *)
Theorem C55_round_trip_partial tenv o cfg tag ename variants v w text : FloatIn bits -> widens -> valid_config cfg ->
  struct_names o cfg = false -> NoDup (map fst variants) ->
  tagged_val tenv (fun k b => float_val k b /\ bound_fine (number_suffixes cfg) (VFloat k b)) ename variants v ->
  as_tagged tag v = Some w -> plain (fun k b => float_val k b /\ bound_fine (number_suffixes cfg) (VFloat k b)) w ->
  restricted (extensions o cfg) (compact_ranges cfg) false w -> untagged_keys tag w -> room (need w) (o_limit o) -> to_string o cfg w = inl text ->
  exists n, forall f, (n <= f)%nat -> options_from_str o (de_tagged tenv f tag ename variants) text = RValue v.
Proof.
  intros FI WI VC SN ND TV AT PL RS UK RM TS. set (fok := fun k b => _) in *.
  assert (HF : forall k b, fok k b ->
    exists n, num_text n (SerLex.float_text k b ++ if number_suffixes cfg then fk_suffix k else []) /\ num_into n (TFloat k) = Some (VFloat k b)).
  { intros k b [FV BF]. destruct (bound_num k b (num_text_of cfg (VFloat k b)) FI) as (n & NT & _ & NI).
    - apply (bound_text cfg (VFloat k b)); auto; [discriminate|]. intros k' b' Q. injection Q as <- <-. exact FV.
    - exists n. split; [exact NT|exact NI]. }
  assert (HC : forall k b, float_val k b /\ bound_fine (number_suffixes cfg) (VFloat k b) -> b < 2 ^ f_bits k /\ canon k b = b) by (intros k b [FV _]; exact FV).
  assert (DONE : forall name iv (P : list (value * value) -> Prop), In (name, iv) variants ->
    em (ser o cfg w) 0 false 0 (fun _ t _ _ _ => exists es, P es /\ tagged_text (x_unwrap_variant_newtypes (extensions o cfg)) tag (need w) (inl name :: map inr es) t) ->
    (forall es, P es -> enough (fun f => of_tagged tenv f ename (name, iv) (XMap es) = CVal v)) ->
    exists n, forall f, (n <= f)%nat -> options_from_str o (de_tagged tenv f tag ename variants) text = RValue v).
  { intros name iv P IV EM CV. destruct (em_to_string o cfg VC w text _ EM TS) as (a & y & t & -> & HA & EX & es & HP & TT).
    destruct (CV es HP) as (n & F). exists n. intros f LF. rewrite <- (app_nil_r t).
    apply (C55_read tenv f tag ename variants o (need w) (inl name :: map inr es) [] a y t [] name iv v); auto; [apply lefts_one|constructor|now rewrite EX|left; constructor|].
    rewrite rights_rest. now apply F. }
  destruct TV as [k IV|k T v IV HT|k deny fields fs IV NF MF TF]; cbn [as_tagged] in AT.
  - injection AT as <-. apply (DONE k IUnit (fun _ => True) IV); [|intros; now apply enough_all].
    destruct PL as (WN & _). eapply em_conseq; [apply (em_tagged_struct o cfg VC SN fok HF tag ename k [] WN); [intros ? []|intros []]|].
    cbn beta. intros _ t i b d (es & _ & TT). eauto.
  - apply (DONE k (INew T) (held v) IV).
    + now apply (em_tag_onto o cfg VC SN fok HF HC tag tenv k w PL RS UK v T).
    + intros es H. eapply enough_mono; [|exact (held_converts tenv fok T v es HT H)]. cbn. intros f ->. reflexivity.
  - injection AT as <-. apply (DONE k (IStruct deny fields) (fun es => Forall2 (fun fv kx => fst kx = XStr (fst fv) /\ buffers (snd fv) (snd kx)) fs es) IV).
    + destruct PL as (WN & PL). destruct RS as (_ & _ & _ & RS). rewrite SerRepr.all_in in RS.
      apply (em_tagged_struct o cfg VC SN fok HF tag ename k fs WN); [|now apply field_keys in UK].
      intros kv IN. rewrite Forall_forall in TF. destruct (TF kv IN) as (T & _ & HT). eapply (typed_fine o cfg VC SN fok HF HC); [exact HT|now apply RS].
    + intros es F. eapply enough_mono; [|eapply (fields_typed tenv fok (of_owned tenv) buffers deny fields fs es F); [|exact NF|exact MF|exact TF]].
      * cbn. intros f. unfold content_struct_of. intros ->. reflexivity.
      * intros v x T B HT. now apply (buffers_owned tenv fok v x T B).
Qed.
End Proofs.

(** ** Examples *)
#[local] Existing Instance Toy.
#[local] Existing Instance toy_xid.
#[local] Existing Instance toy_float.

(** #[serde(tag = "t")] enum E { U, N(HashMap<u8, Kind>), S { a: Option<bool>, b: Kind }, V(Kind) } *)
Definition ex_tag : str := Eval vm_compute in lit "t".
Definition ex_enum : str := Eval vm_compute in lit "E".
Definition ex_ivariants : list (str * ivariant) := Eval vm_compute in
  [(lit "U", IUnit); (lit "N", INew (TMap (TInt U8) ex_kind));
   (lit "S", IStruct true [(lit "a", TOption TBool); (lit "b", ex_kind)]); (lit "V", INew ex_kind)].
Definition ex_s : val := Eval vm_compute in VStructVariant ex_enum (lit "S") [(lit "a", VSome (VBool true)); (lit "b", VUnitVariant (lit "Kind") (lit "X"))].
Definition ex_n : val := Eval vm_compute in VNewVariant ex_enum (lit "N") (VMap [(VInt U8 1, VUnitVariant (lit "Kind") (lit "X"))]).
Definition ex_v : val := Eval vm_compute in VNewVariant ex_enum (lit "V") (VStructVariant (lit "Kind") (lit "Z") [(lit "q", VChar 120)]).
Definition writes_as (v : val) (text : str) : Prop := exists w, as_tagged ex_tag v = Some w /\
  restricted (extensions opts_default None) false false w /\ untagged_keys ex_tag w /\ room (need w) (o_limit opts_default) /\
  to_string opts_default None w = inl text /\
  options_from_str opts_default (de_tagged no_refs 9 ex_tag ex_enum ex_ivariants) text = RValue v.
Ltac written := unfold writes_as; eexists; split; [reflexivity|split; [cbn; repeat split; discriminate|split; [|split; [cbn; lia|split; vm_compute; reflexivity]]]];
  unfold untagged_keys; intros k x IN B; cbn in IN; repeat (destruct IN as [<-|IN]); [inversion B; subst; intros [Q|Q]; discriminate Q..|destruct IN].
Example C55_ex :
  tagged_val no_refs (fun k b => float_val k b /\ bound_fine false (VFloat k b)) ex_enum ex_ivariants ex_s /\
  writes_as (VUnitVariant ex_enum (lit "U")) (lit "(t:""U"")") /\
  writes_as ex_s (lit "(t:""S"",a:Some(true),b:X)") /\
  writes_as ex_n (lit "{""t"":""N"",1:X}") /\
  writes_as ex_v (lit "{""t"":""V"",""Z"":(q:'x')}").
Proof.
  split; [|split; [written|split; [written|split; written]]].
  eapply tv_struct; [right; right; left; reflexivity|apply nodup_str; reflexivity|reflexivity|]. constructor; [|constructor; [|constructor]].
  - eexists. split; [left; reflexivity|]. apply ty_some. constructor.
  - eexists. split; [right; left; reflexivity|]. eapply ty_unit_variant; [apply nodup_str; reflexivity|left; reflexivity].
Qed.
(** The tag in another place, as bytes, and with other spellings of the fields;
    no tag, two tags, a tag that is no string. *)
Example C55_read_ex :
  options_from_str opts_default (de_tagged no_refs 9 ex_tag ex_enum ex_ivariants) (lit "Any ( b : X , r#t : r#""S""# , )") =
    RValue (VStructVariant ex_enum (lit "S") [(lit "a", VNone); (lit "b", VUnitVariant (lit "Kind") (lit "X"))]) /\
  options_from_str opts_default (de_tagged no_refs 9 ex_tag ex_enum ex_ivariants) (lit "{1:X,b""t"":""N""}") = RValue ex_n /\
  (exists p, options_from_str opts_default (de_tagged no_refs 9 ex_tag ex_enum ex_ivariants) (lit "(a:Some(true),b:X)") = RError (EMissingStructField ex_tag None) p) /\
  (exists p, options_from_str opts_default (de_tagged no_refs 9 ex_tag ex_enum ex_ivariants) (lit "(t:""S"",t:""S"",b:X)") = RError (EDuplicateStructField ex_tag None) p) /\
  (exists p, options_from_str opts_default (de_tagged no_refs 9 ex_tag ex_enum ex_ivariants) (lit "(t:""W"")") = RError (ENoSuchEnumVariant (lit "W") None) p) /\
  (exists p, options_from_str opts_default (de_tagged no_refs 9 ex_tag ex_enum ex_ivariants) (lit "(t:S,b:X)") = RError EExpectedString p).
Proof.
  split; [vm_compute; reflexivity|split; [vm_compute; reflexivity|]].
  repeat split; eexists; vm_compute; reflexivity.
Qed.
(** A sequence has the tag first, as an identifier. *)
Example C55_seq_ex :
  options_from_str opts_default (de_tagged no_refs 9 ex_tag ex_enum ex_ivariants) (lit "(S,Some(true),X)") = RValue ex_s /\
  options_from_str opts_default (de_tagged no_refs 9 ex_tag ex_enum ex_ivariants) (lit "[U]") = RValue (VUnitVariant ex_enum (lit "U")).
Proof. split; vm_compute; reflexivity. Qed.

(** Without the restrictions values are lost. *)
Definition lost_tagged (o : opts) (cfg : option pconf) (iv : ivariant) (v : val) : Prop :=
  exists w text r, as_tagged ex_tag v = Some w /\ to_string o cfg w = inl text /\
    options_from_str o (de_tagged no_refs 20 ex_tag ex_enum [(lit "A", iv)]) text = r /\ r <> RValue v /\ r <> RDiverges.
Ltac lose_tagged := unfold lost_tagged; eexists _, _, _; split; [reflexivity|split; [vm_compute; reflexivity|split; [vm_compute; reflexivity|split; discriminate]]].
Definition tagged_1 (v : val) : val := VStructVariant ex_enum (lit "A") [(lit "x", v)].
Definition tagged_1_type (T : ty) : ivariant := IStruct false [(lit "x", T)].
(** a map with the tag as a key *)
Theorem C55_tag_key_refuted : lost_tagged opts_default None (INew (TMap TStr TStr)) (VNewVariant ex_enum (lit "A") (VMap [(VStr ex_tag, VStr (lit "v"))])).
Proof. lose_tagged. Qed.
Theorem C55_struct_names_refuted : lost_tagged opts_default names_on (tagged_1_type point) (tagged_1 point_1).
Proof. lose_tagged. Qed.
Theorem C55_newtype_refuted : lost_tagged opts_default None (tagged_1_type (TNewtype (lit "N") (TInt U8))) (tagged_1 (VNewtype (lit "N") (VInt U8 1))).
Proof. lose_tagged. Qed.
Theorem C55_empty_refuted : lost_tagged opts_default None (tagged_1_type (TTuple [])) (tagged_1 (VTuple [])) /\
  lost_tagged opts_default None (tagged_1_type (TStruct false (lit "P") [])) (tagged_1 (VStruct (lit "P") [])).
Proof. split; lose_tagged. Qed.
Theorem C55_wide_integer_refuted : lost_tagged opts_default None (tagged_1_type (TInt U128)) (tagged_1 (VInt U128 1)).
Proof. lose_tagged. Qed.
(** tests/502_known_bugs.rs:10-50, with the position of the error *)
Definition bug_text : str := Eval vm_compute in
  lit "InternallyTagged(" ++ [10] ++ lit "    tag: ""B""," ++ [10] ++ lit "    ho: 24," ++ [10] ++ lit "    a: A(" ++ [10] ++ lit "        hi: 42," ++ [10] ++ lit "    )," ++ [10] ++ lit ")".
Example C55_known_bug_ex :
  to_string opts_default names_on (VStruct (lit "InternallyTagged") [(lit "tag", VStr (lit "B")); (lit "ho", VInt I32 24); (lit "a", VStruct (lit "A") [(lit "hi", VInt I32 42)])]) = inl bug_text /\
  options_from_str opts_default (de_tagged no_refs 20 (lit "tag") (lit "InternallyTagged") [(lit "B", IStruct false [(lit "ho", TInt I32); (lit "a", TStruct false (lit "A") [(lit "hi", TInt I32)])])]) bug_text =
    RError (EMissingStructField (lit "hi") None) (Pos 7 1, Pos 7 2).
Proof. split; vm_compute; reflexivity. Qed.

Print Assumptions C16_no_panic_tagged.
Print Assumptions C17_tagged_terminates.
Print Assumptions C55_read.
Print Assumptions C55_round_trip_partial.
Print Assumptions C55_tag_key_refuted.
Print Assumptions C55_struct_names_refuted.
Print Assumptions C55_newtype_refuted.
Print Assumptions C55_empty_refuted.
Print Assumptions C55_wide_integer_refuted.
