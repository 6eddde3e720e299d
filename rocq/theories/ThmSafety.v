(** C16, C17, C18, C21, C48: safety of deserialization, for every text, type
    table, type, fuel and options. *)
From Coq Require Import String Ascii NArith ZArith Lia Bool List.
From Verif Require Import Base Facts Value Data Parse De Span Wp EnvOk LexSafe DeSafe Fuel Toy Layout LexWs DocSafe.
Import ListNotations.
Open Scope N_scope.
Open Scope list_scope.
Open Scope m_scope.

(** ** C16 *)

Theorem C16_no_panic_str : forall {E : Env} {X : XidOk E} tenv o f t text,
  options_from_str o (de_ty tenv f t) text <> RPanic.
Proof. exact (fun E X => no_panic). Qed.
Print Assumptions C16_no_panic_str.

Theorem C16_no_panic_untyped : forall {E : Env} {X : XidOk E} o text,
  options_from_str o any_value text <> RPanic.
Proof. exact (fun E X => any_no_panic). Qed.
Print Assumptions C16_no_panic_untyped.

Theorem C16_no_panic_bytes : forall {E : Env} {X : XidOk E} tenv o f t bs,
  options_from_bytes o (de_ty tenv f t) bs <> RPanic.
Proof. exact (fun E X tenv o f t => from_bytes_no_panic o _ (no_panic tenv o f t)). Qed.
Print Assumptions C16_no_panic_bytes.

Theorem C16_no_panic_reader : forall {E : Env} {X : XidOk E} tenv o f t bs io_failed,
  options_from_reader o (de_ty tenv f t) bs io_failed <> RPanic.
Proof. exact (fun E X tenv o f t => from_reader_no_panic o _ (no_panic tenv o f t)). Qed.
Print Assumptions C16_no_panic_reader.

(** ** C17 *)

(** the fuel of [any_value] is twice the length of the text *)
Theorem C17_untyped_terminates : forall {E : Env} {X : XidOk E} o text,
  options_from_str o any_value text <> RDiverges.
Proof. exact (fun E X => any_terminates). Qed.
Print Assumptions C17_untyped_terminates.

(** with a recursion limit: any recursive types *)
Theorem C17_limited_terminates : forall {E : Env} {X : XidOk E} tenv o l f t text,
  productive tenv -> o_limit o = Some l -> (2 * l + 2 <= f)%nat ->
  options_from_str o (de_ty tenv f t) text <> RDiverges.
Proof. exact (fun E X => limited_terminates). Qed.
Print Assumptions C17_limited_terminates.

(** without a recursion limit: types in which every chain of options, newtypes
    and references is finite, linearly in the length of the text *)
Theorem C17_guarded_terminates : forall {E : Env} {X : XidOk E} tenv o rank K f t text,
  guarded tenv rank K -> (cmax rank t <= K)%nat ->
  ((2 * length text + 2) * S K <= f)%nat ->
  options_from_str o (de_ty tenv f t) text <> RDiverges.
Proof. exact (fun E X => guarded_terminates). Qed.
Print Assumptions C17_guarded_terminates.

(** non-recursive types: independently of the text *)
Theorem C17_ranked_terminates : forall {E : Env} {X : XidOk E} tenv o rank f t text,
  ranked tenv rank -> (tdepth rank t <= f)%nat ->
  options_from_str o (de_ty tenv f t) text <> RDiverges.
Proof. exact (fun E X => ranked_terminates). Qed.
Print Assumptions C17_ranked_terminates.

Theorem C17_fuel_irrelevant : forall {E : Env} tenv o f f' t text, (f <= f')%nat ->
  options_from_str o (de_ty tenv f t) text <> RDiverges ->
  options_from_str o (de_ty tenv f' t) text = options_from_str o (de_ty tenv f t) text.
Proof. exact (fun E => fuel_stable). Qed.
Print Assumptions C17_fuel_irrelevant.

(** The claim for all types without a limit is false: a document can enable
    unwrap_newtypes, and [struct A(Box<A>)] then recurses without reading
    anything. *)
Definition loop_env (n : nat) : ty := TNewtype (lit "A") (TRef 0).
Definition loop_text : str := lit "#![enable(unwrap_newtypes)] 1".
Lemma loop_diverges {E : Env} f : forall s, x_unwrap_newtypes (ext s) = true -> lim s = None ->
  de_ty loop_env f (TRef 0) s = OutOfFuel /\ de_ty loop_env f (TNewtype (lit "A") (TRef 0)) s = OutOfFuel.
Proof.
  induction f as [|f IH]; intros s U L; [now split|]. cbn [de_ty de_step loop_env]. split.
  - now apply IH.
  - unfold de_newtype. unfold bind at 1, get. rewrite U. unfold bind, modify, guard_r, guard_with. cbn [lim orb set_nt].
    rewrite L. destruct (IH (set_nt false s)) as [-> _]; auto.
Qed.
#[local] Existing Instances Toy toy_xid.
Theorem C17_unlimited_refuted : exists tenv t o text, o_limit o = None /\
  forall f, options_from_str o (de_ty tenv f t) text = RDiverges.
Proof.
  exists loop_env, (TRef 0), (Opts exts_empty None), loop_text. split; [reflexivity|]. intros f.
  assert (P : exists s, parser_new (init_state loop_text) = Ok tt s /\ x_unwrap_newtypes (ext s) = true).
  { eexists. split; vm_compute; reflexivity. }
  destruct P as (s & P & U).
  unfold options_from_str, from_str, document, bind, modify. rewrite P.
  match goal with |- context [de_ty loop_env f (TRef 0) ?s'] => destruct (loop_diverges f s') as [-> _] end;
    cbn; now rewrite ?U.
Qed.
Print Assumptions C17_unlimited_refuted.

(** an example of a recursive type that is guarded: [struct L { h: i8, t: Option<Box<L>> }] *)
Definition list_env (n : nat) : ty :=
  TStruct false (lit "L") [(lit "h", TInt I8); (lit "t", TOption (TRef 0))].
Example C17_guarded_example :
  guarded list_env (fun _ => 1%nat) 3 /\ (cmax (fun _ => 1%nat) (TRef 0) <= 3)%nat /\ productive list_env.
Proof. repeat split; cbn; lia. Qed.
Example C16_example :
  options_from_str (Opts exts_empty None) (de_ty list_env 40 (TRef 0)) (lit "L(h: 1, t: Some((h: 2)))")
  = RValue (VStruct (lit "L") [(lit "h", VInt I8 1);
      (lit "t", VSome (VStruct (lit "L") [(lit "h", VInt I8 2); (lit "t", VNone)]))]).
Proof. vm_compute. reflexivity. Qed.
Example C16_example_error :
  exists sp, options_from_str (Opts exts_empty None) (de_ty list_env 40 (TRef 0)) (lit "L(h: 1, t: Some(") = RError (EExpectedNamedStructLike (lit "L")) sp.
Proof. eexists. vm_compute. reflexivity. Qed.

(** ** C18 *)

(** [head] reads attributes and value.  Whatever follows must be layout. *)
Theorem C18_whole_document : forall {E : Env} {X : XidOk E} tenv o f t text v,
  options_from_str o (de_ty tenv f t) text = RValue v ->
  exists s, head o (de_ty tenv f t) (init_state text) = Ok v s /\
    suf (rest s) text /\ final_layout (rest s).
Proof. exact (fun E X => typed_whole). Qed.
Print Assumptions C18_whole_document.

Theorem C18_trailing_rejected : forall {E : Env} {X : XidOk E} tenv o f t text v s,
  head o (de_ty tenv f t) (init_state text) = Ok v s ->
  (final_layout (rest s) -> options_from_str o (de_ty tenv f t) text = RValue v) /\
  (~ final_layout (rest s) -> exists e sp, options_from_str o (de_ty tenv f t) text = RError e sp).
Proof. exact (fun E X => typed_trailing). Qed.
Print Assumptions C18_trailing_rejected.

Example C18_example : exists v s,
  head opts_default (de_ty list_env 9 (TInt I8)) (init_state (lit "5 /* x */ // end")) = Ok v s /\
  final_layout (rest s) /\ rest s = lit " /* x */ // end".
Proof.
  eexists _, _. split; [vm_compute; reflexivity|]. split; [|reflexivity]. cbn.
  right. exists (lit " /* x */ "), (lit " end"). split; [|split; [|reflexivity]].
  - apply l_ws; [reflexivity|].
    apply (l_block (lit " x */") (lit " ")); [|apply l_ws; [reflexivity|constructor]].
    repeat (apply cb_char; [|reflexivity|reflexivity]). apply cb_close.
  - repeat constructor; discriminate.
Qed.
Example C18_example_rejected : exists sp,
  options_from_str opts_default (de_ty list_env 9 (TInt I8)) (lit "5 6") = RError ETrailingCharacters sp.
Proof. eexists. vm_compute. reflexivity. Qed.

(** ** C21 *)

(** both ends of the span are character offsets of the document *)
Theorem C21_span_inside : forall {E : Env} {X : XidOk E} tenv o f t text e sp,
  options_from_str o (de_ty tenv f t) text = RError e sp ->
  exists i j, (i <= length text)%nat /\ (j <= length text)%nat /\
    sp = (from_src_end (firstn i text), from_src_end (firstn j text)).
Proof. exact (fun E X => typed_span). Qed.
Print Assumptions C21_span_inside.

Theorem C21_span_inside_untyped : forall {E : Env} {X : XidOk E} o text e sp,
  options_from_str o any_value text = RError e sp ->
  exists i j, (i <= length text)%nat /\ (j <= length text)%nat /\
    sp = (from_src_end (firstn i text), from_src_end (firstn j text)).
Proof. exact (fun E X => any_span). Qed.
Print Assumptions C21_span_inside_untyped.

(** ... but the start can lie behind the end: the suffix of [_5i8] is looked
    up before the digits, and [prev_cursor] is not rewound *)
Theorem C21_span_order_refuted : exists tenv o f t text e l c1 c2,
  options_from_str o (de_ty tenv f t) text = RError e (Pos l c1, Pos l c2) /\ (c2 < c1)%nat.
Proof.
  eexists list_env, opts_default, 3%nat, (TInt I8), (lit "_5i8"), _, _, _, _.
  split; [vm_compute; reflexivity|lia].
Qed.
Print Assumptions C21_span_order_refuted.

Example C21_example : 
  options_from_str opts_default (de_ty list_env 9 (TRef 0)) (lit "(h: 300)")
  = RError EIntegerOutOfBounds (Pos 1 5, Pos 1 8).
Proof. vm_compute. reflexivity. Qed.

(** ** C48 *)

(** [inv text s]: the cursors of [s] are suffixes of [text]; it holds initially
    and is preserved *)
Theorem C48_left_to_right : forall {E : Env} {X : XidOk E} tenv f t text s,
  inv text s ->
  match de_ty tenv f t s with
  | Ok _ s' | Err _ s' => inv text s' /\ exists consumed, rest s = consumed ++ rest s'
  | Panic => False
  | OutOfFuel => True
  end.
Proof. exact (fun E X => typed_left_to_right). Qed.
Print Assumptions C48_left_to_right.

Theorem C48_tokens_left_to_right : forall {E : Env} {X : XidOk E} text s, inv text s ->
  (forall A (m : M A), forward_token A m ->
   match m s with
   | Ok _ s' | Err _ s' => inv text s' /\ exists consumed, rest s = consumed ++ rest s'
   | _ => False
   end).
Proof. exact (fun E X => token_left_to_right). Qed.
Print Assumptions C48_tokens_left_to_right.

Example C48_initial : forall text, inv text (init_state text).
Proof. exact inv_init. Qed.
