(** C58: adjacently tagged enums. *)
From Coq Require Import String Ascii NArith ZArith Lia Bool List.
From Coq Require Import ZifyBool ZifyNat ZifyN.
From Verif Require Import Base Facts Value Data Parse De Span Ser Wp EnvOk Layout Lit Attr DocSafe DocRead SerLex LexDoc LexSafe DeSafe Typing Typed Repr ReprFacts TypedRead TypedMain RangeSpec SerNum SerWp SerRepr ThmTyped IntoRust Content VRepr AnyRead ContentRead Tagged TaggedWrite ThmUntagged ThmTagged Adjacent AdjacentRead AdjacentWrite Toy.
Import ListNotations.
Open Scope N_scope.
Open Scope list_scope.
Open Scope m_scope.

(** The fields of a struct variant are written as a struct that shows them: it
    has a field, and is not a range in the range syntax. *)
Definition shown (cfg : option pconf) (v : val) : Prop :=
  match v with
  | VStructVariant _ k fs => fs <> [] /\ (compact_ranges cfg = true -> numeric_range k fs = false)
  | _ => True
  end.

Section Proofs.
Context {E : Env} {X : XidOk E} {FO : FloatOk E}.

Lemma adjacent_start {e sf n tn} r : name_text e sf true n tn -> value_start (tn ++ c_lp :: r).
Proof.
  intros H. apply opens_start. destruct H as [|t w SF IL L _]; [split; [reflexivity|cbn; intuition discriminate]|].
  rewrite <- app_assoc. now apply ident_opens with n.
Qed.
Theorem C58_read (sf : token -> Prop) tenv fok tag content deny ename variants o v l w0 at0 e tn w t w1 :
  (forall t, sf (KName t) -> ~ In t keywords) -> tag <> content -> NoDup (map fst variants) ->
  adjacent_val tenv fok ename variants v -> visible sf v -> as_adjacent tag content v = Some (VStruct ename l) ->
  layout w0 -> attrs_text at0 e -> name_text (exts_or e (o_exts o)) sf true ename tn -> layout w ->
  items (entry field_key_text (repr (exts_or e (o_exts o)) sf)) l t -> final_layout w1 -> room (need (VStruct ename l)) (o_limit o) ->
  exists n, forall f, (n <= f)%nat ->
    options_from_str o (de_adjacent tenv f tag content deny ename variants) (w0 ++ at0 ++ (tn ++ c_lp :: w ++ t ++ [c_rp]) ++ w1) = RValue v.
Proof.
  intros HN TC ND AV VS AA L0 HA NM L IT FL RM.
  destruct (adjacent_reads (exts_or e (o_exts o)) sf tenv fok HN tag content deny ename variants TC ND v l tn t w AV VS AA NM L IT) as (n & H).
  exists n. intros f LF. specialize (H f LF).
  eapply document_reads; [exact L0|exact HA| |exact FL|].
  { rewrite <- app_assoc. cbn [app]. apply (adjacent_start _ NM). }
  intros T s J Hs He Hn Hl _.
  eapply wp_conseq; [apply (H T s w1); auto; [exact Logic.I|now rewrite Hl]| |auto]. cbn beta. tauto.
Qed.

Lemma adjacent_plain tenv fok tag content ename variants v w : adjacent_val tenv fok ename variants v -> as_adjacent tag content v = Some w -> plain fok w.
Proof.
  intros AV AA. destruct AV as [k IN|k T v IN HT|k ts l IN HT|k dn fields fs IN ND MF HT]; injection AA as <-; cbn [plain all fold_right snd]; auto.
  - split; [exact Logic.I|]. split; [now apply typed_plain with tenv T|exact Logic.I].
  - split; [exact Logic.I|]. split; [|exact Logic.I]. apply (typed_plain tenv fok (VTuple l) (TTuple ts)). now constructor.
  - split; [exact Logic.I|]. split; [|exact Logic.I]. apply (typed_plain tenv fok (VStruct k fs) (TStruct dn k fields)). now constructor.
Qed.
Lemma adjacent_named tenv fok tag content ename variants v w : adjacent_val tenv fok ename variants v -> as_adjacent tag content v = Some w -> exists l, w = VStruct ename l.
Proof. intros AV AA. destruct AV; injection AA as <-; eauto. Qed.
Lemma shown_visible cfg v : shown cfg v -> visible (sf cfg) v.
Proof.
  destruct v; auto. cbn. intros [H1 H2]. split; [exact H1|]. intros CR t RT. apply range_numeric in RT. cbn in RT. rewrite H2 in RT; [discriminate|exact CR].
Qed.
Theorem C58_round_trip tenv o cfg tag content deny ename variants v w text :
  valid_config cfg -> tag <> content -> NoDup (map fst variants) ->
  adjacent_val tenv float_val ename variants v -> shown cfg v -> as_adjacent tag content v = Some w ->
  ranges_ok (extensions o cfg) cfg false w -> clash (extensions o cfg) w = false -> room (need w) (o_limit o) ->
  to_string o cfg w = inl text ->
  exists n, forall f, (n <= f)%nat -> options_from_str o (de_adjacent tenv f tag content deny ename variants) text = RValue v.
Proof.
  intros VC TC ND AV SH AA RO CL RM TS.
  destruct (adjacent_named _ _ _ _ _ _ _ _ AV AA) as [l ->]. assert (PL := adjacent_plain _ _ _ _ _ _ _ _ AV AA).
  destruct (em_to_string o cfg VC (VStruct ename l) text (struct_text o cfg ename l)) as (a & y & t & -> & HA & EX & ST); [|exact TS|].
  { apply em_struct_order; [exact VC|now apply adjacent_no_range with (1 := AA)| |exact RO].
    rewrite all_in. intros kv IN. apply (ser_sem o cfg VC float_val); [auto| |].
    - cbn [plain] in PL. rewrite all_in in PL. auto.
    - cbn [clash] in CL. exact (any_false _ l CL kv IN). }
  destruct ST as (tn & w & ti & -> & NM & L & IT). rewrite <- EX in NM, IT.
  destruct (C58_read (sf cfg) tenv float_val tag content deny ename variants o v l [] a y tn w ti []) as (n & H); auto.
  - now apply shown_visible.
  - constructor.
  - now left; constructor.
  - exists n. intros f LF. specialize (H f LF). rewrite app_nil_r in H. exact H.
Qed.
End Proofs.

(** ** Examples *)
#[local] Existing Instance Toy.
#[local] Existing Instance toy_xid.
#[local] Existing Instance toy_float.

(** #[serde(tag = "t", content = "c")]
    enum E { U, N(Option<u8>), T(bool, Kind), S { a: Option<bool>, b: P } } *)
Definition ex_c : str := Eval vm_compute in lit "c".
Definition ex_avariants : list (str * avariant) := Eval vm_compute in
  [(lit "U", AUnit); (lit "N", ANew (TOption (TInt U8))); (lit "T", ATup [TBool; ex_kind]);
   (lit "S", AStruct true [(lit "a", TOption TBool); (lit "b", point)])].
Definition adj_s : val := Eval vm_compute in VStructVariant ex_enum (lit "S") [(lit "a", VSome (VBool true)); (lit "b", point_1)].
Definition adj_t : val := Eval vm_compute in VTupVariant ex_enum (lit "T") [VBool true; VUnitVariant (lit "Kind") (lit "X")].
Definition adj_n : val := Eval vm_compute in VNewVariant ex_enum (lit "N") (VSome (VInt U8 1)).
Definition adj_u : val := Eval vm_compute in VUnitVariant ex_enum (lit "U").
Definition adj_de (o : opts) (text : str) : result val := options_from_str o (de_adjacent no_refs 9 ex_tag ex_c false ex_enum ex_avariants) text.
Definition adj_writes (o : opts) (cfg : option pconf) (v : val) (text : str) : Prop := exists w, as_adjacent ex_tag ex_c v = Some w /\ shown cfg v /\
  clash (extensions o cfg) w = false /\ room (need w) (o_limit o) /\ to_string o cfg w = inl text /\ adj_de o text = RValue v.
Ltac adj := unfold adj_writes; eexists; split; [reflexivity|split; [cbn; (exact Logic.I || (split; [discriminate|intros _; reflexivity]))|split; [reflexivity|split; [cbn; lia|split; vm_compute; reflexivity]]]].
Example C58_ex :
  adjacent_val no_refs float_val ex_enum ex_avariants adj_t /\
  adj_writes opts_default None adj_u (lit "(t:U)") /\
  adj_writes opts_default None adj_n (lit "(t:N,c:Some(1))") /\
  adj_writes opts_default None adj_t (lit "(t:T,c:(true,X))") /\
  adj_writes opts_default None adj_s (lit "(t:S,c:(a:Some(true),b:(a:1)))").
Proof.
  split; [|split; [adj|split; [adj|split; adj]]].
  eapply av_tup; [right; right; left; reflexivity|]. constructor; [constructor|]. constructor; [|constructor].
  eapply ty_unit_variant; [apply nodup_str; reflexivity|left; reflexivity].
Qed.

(** tests/502_known_bugs.rs:54-110: struct names are kept apart from the
    variants if the tag comes first. *)
Definition known : str -> result val :=
  options_from_str opts_default (de_adjacent no_refs 9 (lit "tag") (lit "content") false (lit "AdjacentlyTagged")
    [(lit "B", AStruct false [(lit "ho", TInt I32); (lit "a", TStruct false (lit "A") [(lit "hi", TInt I32)])])]).
Definition known_val : val := VStructVariant (lit "AdjacentlyTagged") (lit "B") [(lit "ho", VInt I32 24); (lit "a", VStruct (lit "A") [(lit "hi", VInt I32 42)])].
Definition known_text : str := Eval vm_compute in
  lit "AdjacentlyTagged(" ++ [10] ++ lit "    tag: B," ++ [10] ++ lit "    content: B(" ++ [10] ++ lit "        ho: 24," ++ [10] ++
  lit "        a: A(" ++ [10] ++ lit "            hi: 42," ++ [10] ++ lit "        )," ++ [10] ++ lit "    )," ++ [10] ++ lit ")".
Example C58_known_ex :
  shown names_on known_val /\
  option_map (to_string opts_default names_on) (as_adjacent (lit "tag") (lit "content") known_val) = Some (inl known_text) /\
  known known_text = RValue known_val /\
  known (lit "AdjacentlyTagged(tag: B, content: B(ho: 24, a: A(hi: 42)))") = RValue known_val.
Proof. split; [split; [discriminate|intros _; reflexivity]|]. split; [|split]; vm_compute; reflexivity. Qed.
(** With the content first, they are not. *)
Theorem C58_content_first_refuted : exists text text',
  known text = RValue known_val /\ known text' <> RValue known_val /\
  text = lit "AdjacentlyTagged(tag: B, content: B(ho: 24, a: A(hi: 42)))" /\
  text' = lit "AdjacentlyTagged(content: B(ho: 24, a: A(hi: 42)), tag: B)" /\
  known text' = RError (EMissingStructField (lit "ho") (Some (lit "AdjacentlyTagged"))) (Pos 1 58, Pos 1 58).
Proof.
  exists (lit "AdjacentlyTagged(tag: B, content: B(ho: 24, a: A(hi: 42)))"), (lit "AdjacentlyTagged(content: B(ho: 24, a: A(hi: 42)), tag: B)").
  assert (R : known (lit "AdjacentlyTagged(content: B(ho: 24, a: A(hi: 42)), tag: B)") = RError (EMissingStructField (lit "ho") (Some (lit "AdjacentlyTagged"))) (Pos 1 58, Pos 1 58)) by (vm_compute; reflexivity).
  rewrite R. split; [vm_compute; reflexivity|]. split; [discriminate|]. auto.
Qed.
(** A struct variant without fields is lost. *)
Theorem C58_empty_refuted : exists w text p, as_adjacent ex_tag ex_c (VStructVariant ex_enum (lit "A") []) = Some w /\
  to_string opts_default None w = inl text /\
  options_from_str opts_default (de_adjacent no_refs 9 ex_tag ex_c false ex_enum [(lit "A", AStruct false [])]) text = RError EInvalidValueForType p.
Proof.
  eexists. exists (lit "(t:A,c:())"). eexists. split; [reflexivity|]. split; vm_compute; reflexivity.
Qed.
(** tests/393_serde_errors.rs:269-288 *)
Example C58_missing_ex :
  options_from_str opts_default (de_adjacent no_refs 9 (lit "type") (lit "content") true (lit "TestEnumAdjacent")
    [(lit "UnitVariant", AUnit); (lit "StructVariant", AStruct true [(lit "a", TInt U8); (lit "d", TInt U8)])])
    (lit "(type: StructVariant, content: (d: 4))") =
  RError (EMissingStructField (lit "a") (Some (lit "TestEnumAdjacent"))) (Pos 1 37, Pos 1 37).
Proof. vm_compute. reflexivity. Qed.
(** The content first, an optional content left out, other fields; neither tag
    nor content twice, no tag. *)
Example C58_read_ex :
  adj_de opts_default (lit "( c : Some(1) , r#t : N , )") = RValue adj_n /\
  adj_de opts_default (lit "E(other:[1,2],t:N)") = RValue (VNewVariant ex_enum (lit "N") VNone) /\
  adj_de opts_default (lit "(t:U,c:())") = RValue adj_u /\
  (exists p, adj_de opts_default (lit "(t:T)") = RError (EMissingStructField ex_c (Some ex_enum)) p) /\
  (exists p, adj_de opts_default (lit "(c:1)") = RError (EMissingStructField ex_tag (Some ex_enum)) p) /\
  (exists p, adj_de opts_default (lit "(t:N,t:N)") = RError (EDuplicateStructField ex_tag (Some ex_enum)) p) /\
  (exists p, adj_de opts_default (lit "(t:N,c:None,c:None)") = RError (EDuplicateStructField ex_c (Some ex_enum)) p) /\
  (exists p, adj_de opts_default (lit "(t:W)") = RError (ENoSuchEnumVariant (lit "W") (Some ex_enum)) p).
Proof.
  split; [vm_compute; reflexivity|split; [vm_compute; reflexivity|split; [vm_compute; reflexivity|]]].
  repeat split; eexists; vm_compute; reflexivity.
Qed.

Print Assumptions C58_read.
Print Assumptions C58_round_trip.
Print Assumptions C58_content_first_refuted.
Print Assumptions C58_empty_refuted.
