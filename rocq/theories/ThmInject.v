(** C64: different values are written differently; C20: the recursion limit of
    the serializer only refuses. *)
From Coq Require Import String Ascii NArith ZArith Lia Bool List.
From Coq Require Import ZifyBool ZifyNat ZifyN.
From Verif Require Import Base Facts Value Data Parse De Span Ser Wp EnvOk Layout Lit Attr LexDoc DocSafe SerLex Typing ValueFacts Repr ReprFacts TypedRead VRepr RangeSpec SerRepr SerBlind ThmTyped ThmAny ThmUnwrap Toy.
Import ListNotations.
Open Scope N_scope.
Open Scope list_scope.

Section WithEnv.
Context {E : Env}.
(** C20: what is written under a limit is what is written without one *)
Theorem C20_same_text o cfg v t : to_string o cfg v = inl t -> to_string (Opts (o_exts o) None) cfg v = inl t.
Proof. apply blind_to_string. Qed.

Context {X : XidOk E} {FO : FloatOk E}.
(** C64: two values of a type that are written as the same text, with the same
    options and two pretty configurations, are the same *)
Theorem C64_typed tenv o cfg1 cfg2 T v1 v2 text : valid_config cfg1 -> valid_config cfg2 ->
  ranges_ok (extensions o cfg1) cfg1 false v1 -> ranges_ok (extensions o cfg2) cfg2 false v2 ->
  typed tenv float_val T v1 -> typed tenv float_val T v2 ->
  clash (extensions o cfg1) v1 = false -> clash (extensions o cfg2) v2 = false ->
  to_string o cfg1 v1 = inl text -> to_string o cfg2 v2 = inl text -> v1 = v2.
Proof.
  intros VC1 VC2 R1 R2 T1 T2 C1 C2 S1 S2. apply blind_to_string in S1, S2.
  destruct (round_trip_limit tenv (Opts (o_exts o) None) cfg1 T v1 text VC1 R1 Logic.I T1 C1 S1) as (n1 & D1).
  destruct (round_trip_limit tenv (Opts (o_exts o) None) cfg2 T v2 text VC2 R2 Logic.I T2 C2 S2) as (n2 & D2).
  specialize (D1 (Nat.max n1 n2)). specialize (D2 (Nat.max n1 n2)). rewrite D1 in D2 by lia. assert (Q := D2 ltac:(lia)). congruence.
Qed.
Lemma embed_inj x : forall y, embed x = embed y -> x = y.
Proof.
  induction x as [x F|x IH|l IH|m IH] using value_ind'; intros y H.
  - destruct x as [b|c|es|n| |x|s|b|l|]; try contradiction; destruct y as [b'|c'|es'|n'| |y|s'|b'|l'|]; try destruct n as [k z|k z]; try destruct n' as [k' z'|k' z']; cbn in H; congruence.
  - destruct y as [b'|c'|es'|n'| |y|s'|b'|l'|]; try destruct n'; cbn in H; try discriminate. f_equal. apply IH. congruence.
  - destruct y as [b'|c'|es'|n'| |y|s'|b'|l'|]; try destruct n'; cbn in H; try discriminate. f_equal. injection H as H. revert l' H.
    induction l as [|x l IHl]; intros [|y l'] H; try discriminate; [reflexivity|]. cbn in H. destruct IH as [I1 I2]. injection H as H1 H2. f_equal; auto.
  - destruct y as [b'|c'|es'|n'| |y|s'|b'|l'|]; try destruct n'; cbn in H; try discriminate. f_equal. injection H as H. revert es' H.
    induction m as [|[k x] m IHm]; intros [|[k' y] m'] H; try discriminate; [reflexivity|]. cbn in H. destruct IH as [[I1 I1'] I2]. injection H as H1 H2 H3.
    f_equal; auto. f_equal; auto.
Qed.
(** C64 for a ron::Value, with number suffixes *)
Theorem C64_value o cfg1 cfg2 x1 x2 text : valid_config cfg1 -> valid_config cfg2 ->
  x_implicit_some (extensions o cfg1) = false -> x_implicit_some (extensions o cfg2) = false ->
  number_suffixes cfg1 = true -> number_suffixes cfg2 = true -> a_value x1 -> a_value x2 ->
  to_string o cfg1 (embed x1) = inl text -> to_string o cfg2 (embed x2) = inl text -> x1 = x2.
Proof.
  intros VC1 VC2 I1 I2 N1 N2 A1 A2 S1 S2. apply blind_to_string in S1, S2. apply embed_inj.
  assert (SM : forall (P : Prop) x, P -> somes P x).
  { intros P x H. induction x as [x F|x IH|l IH|m IH] using value_ind'; cbn [somes]; auto. destruct x; exact Logic.I || contradiction. }
  assert (D1 := C14_value_round_trip_partial (fun _ => TUnit) 0 (Opts (o_exts o) None) cfg1 x1 text VC1 (SM _ x1 I1) N1 A1 Logic.I S1).
  assert (D2 := C14_value_round_trip_partial (fun _ => TUnit) 0 (Opts (o_exts o) None) cfg2 x2 text VC2 (SM _ x2 I2) N2 A2 Logic.I S2).
  congruence.
Qed.
End WithEnv.
Print Assumptions C20_same_text.
Print Assumptions C64_typed.
Print Assumptions C64_value.

(** ** Examples and refutations *)
#[local] Existing Instance Toy.
#[local] Existing Instance toy_xid.
#[local] Existing Instance toy_float.
(** nested options with implicit_some: the four values are told apart *)
Definition ex_options : opts := Opts (Exts false true false false) (Some 9%nat).
Example C64_ex : map (to_string ex_options None) [VNone; VSome VNone; VSome (VSome VNone); VSome (VSome (VBool true))] =
  map inl [lit "None"; lit "Some(None)"; lit "Some(Some(None))"; lit "true"] /\
  Forall (typed (fun _ => TUnit) float_val (TOption (TOption (TOption TBool)))) [VNone; VSome VNone; VSome (VSome VNone)] /\
  valid_config None /\ ranges_ok (extensions ex_options None) None false (VSome VNone) /\ clash (extensions ex_options None) (VSome VNone) = false.
Proof.
  split; [vm_compute; reflexivity|]. split; [repeat constructor|]. split; [exact Logic.I|]. split; [discriminate|reflexivity].
Qed.
Example C64_ex_value : a_value ex_value /\ valid_config ex_suffixes /\ number_suffixes ex_suffixes = true /\
  x_implicit_some (extensions opts_default ex_suffixes) = false.
Proof. split; [apply ex_a_value|]. vm_compute. auto. Qed.
(** unwrapping a variant around an option writes two values alike *)
Theorem C64_clash_refuted : exists o T v1 v2 text, typed (fun _ => TUnit) float_val T v1 /\ typed (fun _ => TUnit) float_val T v2 /\
  to_string o None v1 = inl text /\ to_string o None v2 = inl text /\ v1 <> v2.
Proof.
  exists both_exts, (TEnum (lit "E") [(lit "A", WNew (TOption (TTuple [TOption TBool])))]),
    (VNewVariant (lit "E") (lit "A") (VSome (VTuple [VNone]))), (VNewVariant (lit "E") (lit "A") VNone), (lit "A(None)").
  split; [|split; [|split; [vm_compute; reflexivity|split; [vm_compute; reflexivity|discriminate]]]].
  all: econstructor; [apply nodup_str; reflexivity|cbn; auto|repeat constructor].
Qed.
(** and a Value without number suffixes does not show the width of its numbers *)
Theorem C64_width_refuted : exists x1 x2 text, a_value x1 /\ a_value x2 /\
  to_string opts_default None (embed x1) = inl text /\ to_string opts_default None (embed x2) = inl text /\ x1 <> x2.
Proof.
  exists (XNum (NInt U8 1)), (XNum (NInt U16 1)), (lit "1").
  split; [split; [constructor; split; reflexivity|now constructor]|]. split; [split; [constructor; split; reflexivity|now constructor]|].
  split; [vm_compute; reflexivity|]. split; [vm_compute; reflexivity|discriminate].
Qed.
Print Assumptions C64_clash_refuted.
Print Assumptions C64_width_refuted.
