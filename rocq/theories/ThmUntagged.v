(** C53: untagged enums come back, within the restrictions of
    README.md:181-220. *)
From Coq Require Import String Ascii NArith ZArith Lia Bool List.
From Coq Require Import ZifyBool ZifyNat ZifyN.
From Verif Require Import Base Facts Value Data Parse De Span Ser EnvOk Layout Lit Attr DocSafe DocRead SerLex Typing Typed Repr ReprFacts TypedRead RangeSpec SerNum SerRepr ThmTyped IntoRust Content ContentRead ContentMain ThmContent ThmInto ThmThrough Buffered ContentWrite Drawn Toy.
Import ListNotations.
Open Scope N_scope.
Open Scope list_scope.

(** the type whose values are written for a variant *)
Definition variant_type (u : uvariant) : ty :=
  match u with
  | UUnit => TUnit
  | UNew t => t
  | UTup ts => TTuple ts
  | UStruct name deny fields => TStruct deny name fields
  end.

Section Proofs.
Context {E : Env} {X : XidOk E} {FO : FloatOk E}.
(** a variant refuses what the buffer holds *)
Definition refuses (tenv : nat -> ty) (x : value) (u : uvariant) : Prop :=
  exists n, forall f, (n <= f)%nat -> exists er, as_variant tenv f u x = CErr er.

Lemma variant_holds tenv fok u v x : buffers v x -> typed tenv fok (variant_type u) v ->
  enough (fun f => as_variant tenv f u x = CVal v).
Proof.
  intros B HT. assert (C := buffers_convert tenv fok v x B _ HT). destruct u as [|t|ts|name deny fields]; cbn [variant_type as_variant] in *.
  - inversion HT; subst. inversion B; subst. now apply enough_all.
  - exact C.
  - exact C.
  - inversion HT; subst. inversion B; subst. exact C.
Qed.
Lemma first_holds tenv us : forall i j u x v, nth_error us i = Some u -> enough (fun f => as_variant tenv f u x = CVal v) ->
  (forall k u', (k < i)%nat -> nth_error us k = Some u' -> refuses tenv x u') ->
  enough (fun f => first_variant tenv f j us x = CVal ((j + i)%nat, v)).
Proof.
  induction us as [|a us IH]; intros [|i] j u x v NE EN RF; try discriminate NE; cbn [nth_error] in NE.
  - injection NE as ->. eapply enough_mono; [|exact EN]. cbn. intros f ->. now rewrite Nat.add_0_r.
  - assert (R := RF O a ltac:(lia) eq_refl). unfold refuses in R.
    assert (IH' := IH i (Datatypes.S j) u x v NE EN (fun k u' LK => RF (Datatypes.S k) u' ltac:(lia))).
    eapply enough_mono; [|exact (enough_and _ _ R IH')]. cbn. intros f [(er & ->) Q]. rewrite Q. repeat f_equal. lia.
Qed.

Lemma unbind_value {A} o (m : M A) text a : options_from_str o (x <- m ;; ret x) text = RValue a ->
  options_from_str o m text = RValue a.
Proof.
  unfold options_from_str, spanned, from_str, document. unfold bind. destruct (parser_new (init_state text)) as [u s| | |]; auto.
  cbn [modify]. destruct (m _) as [a' s'| | |]; auto.
Qed.

(** The value comes back in the buffer, and as the variant it was written for
    if no variant before it accepts the buffer.  Missing: untagged and tagged
    enums inside. *)
Theorem C53_round_trip_partial tenv o cfg T v text : FloatIn bits -> widens -> valid_config cfg ->
  struct_names o cfg = false ->
  typed tenv (fun k b => float_val k b /\ bound_fine (number_suffixes cfg) (VFloat k b)) T v ->
  restricted (extensions o cfg) (compact_ranges cfg) false v -> room (need v) (o_limit o) -> to_string o cfg v = inl text ->
  exists x, buffers v x /\ options_from_str o content_value text = RValue x /\
    forall us i u, nth_error us i = Some u -> variant_type u = T ->
      (forall j u', (j < i)%nat -> nth_error us j = Some u' -> refuses tenv x u') ->
      exists n, forall f, (n <= f)%nat -> options_from_str o (de_untagged tenv f us) text = RValue (i, v).
Proof.
  intros FI WI VC SN HT RS RM TS.
  assert (HF : forall k b, float_val k b /\ bound_fine (number_suffixes cfg) (VFloat k b) ->
    exists n, num_text n (SerLex.float_text k b ++ if number_suffixes cfg then fk_suffix k else []) /\ num_into n (TFloat k) = Some (VFloat k b)).
  { intros k b [FV BF]. destruct (bound_num k b (num_text_of cfg (VFloat k b)) FI) as (n & NT & _ & NI).
    - apply (bound_text cfg (VFloat k b)); auto; [discriminate|]. intros k' b' Q. injection Q as <- <-. exact FV.
    - exists n. split; [exact NT|exact NI]. }
  assert (HC : forall k b, float_val k b /\ bound_fine (number_suffixes cfg) (VFloat k b) -> b < 2 ^ f_bits k /\ canon k b = b) by (intros k b [FV _]; exact FV).
  destruct (to_string_buffered o cfg VC SN _ HF HC tenv T v text HT RS TS) as (a & y & x & t & -> & HA & EX & B & C).
  exists x. split; [exact B|].
  assert (DOC : forall A (k : value -> M A) (r : A), (forall s, k x s = Ok r s) -> options_from_str o (bind content_value k) (a ++ t) = RValue r).
  { intros A k r HK. rewrite <- (app_nil_r t). apply (content_document o (need v) x [] a y t []); auto; [constructor|now rewrite EX|left; constructor]. }
  split.
  - apply unbind_value. now apply DOC.
  - intros us i u NE VT RF. subst T.
    assert (F := first_holds tenv us i O u x v NE (variant_holds tenv _ u v x B HT) RF). destruct F as (n & F). exists n. intros f LF.
    apply DOC. intros s. now rewrite (F f LF).
Qed.

(** Whatever is accepted, from any text: the result is made of everything that
    the buffer holds, as the first variant that accepts it. *)
Definition drawn_by (tenv : nat -> ty) (u : uvariant) (x : value) (v : val) : Prop :=
  match u with
  | UUnit => (x = XUnit \/ x = XNone) /\ v = VUnit
  | UStruct _ _ _ => (exists es, x = XMap es) /\ drawn tenv (variant_type u) x v
  | _ => drawn tenv (variant_type u) x v
  end.
Lemma variant_drawn tenv f u x v : as_variant tenv f u x = CVal v -> drawn_by tenv u x v.
Proof.
  destruct u as [|t|ts|name deny fields]; cbn [as_variant drawn_by variant_type].
  - destruct x; try discriminate; intros H; injection H as <-; auto.
  - apply of_content_drawn.
  - apply of_content_drawn.
  - destruct x; try discriminate. intros H. split; [eauto|]. now apply of_content_drawn in H.
Qed.
Lemma first_drawn tenv f us x : forall j i v, first_variant tenv f j us x = CVal (i, v) ->
  exists k u, i = (j + k)%nat /\ nth_error us k = Some u /\ drawn_by tenv u x v /\
    forall k' u', (k' < k)%nat -> nth_error us k' = Some u' -> forall v', as_variant tenv f u' x <> CVal v'.
Proof.
  induction us as [|u us IH]; intros j i v; [discriminate|]. cbn [first_variant]. destruct (as_variant tenv f u x) as [w|er|] eqn:Q; [| |discriminate].
  - intros H. injection H as <- <-. exists O, u. split; [lia|]. split; [reflexivity|]. split; [now apply variant_drawn with f|]. intros; lia.
  - intros H. apply IH in H as (k & u1 & -> & NE & D & F). exists (Datatypes.S k), u1. split; [lia|]. split; [exact NE|]. split; [exact D|].
    intros [|k'] u' LK NE'; [cbn in NE'; injection NE' as <-; congruence|]. apply (F k'); [lia|exact NE'].
Qed.
Theorem C53_drawn tenv o f us text i v : options_from_str o (de_untagged tenv f us) text = RValue (i, v) ->
  exists x u, options_from_str o content_value text = RValue x /\ nth_error us i = Some u /\ drawn_by tenv u x v /\
    forall j u', (j < i)%nat -> nth_error us j = Some u' -> forall v', as_variant tenv f u' x <> CVal v'.
Proof.
  unfold options_from_str, spanned, from_str, document, de_untagged. unfold bind. destruct (parser_new (init_state text)) as [u0 s|er s| |];
    try (destruct (span_error text s); discriminate); try discriminate.
  cbn [modify]. destruct (content_value _) as [x s'|er s'| |]; try (destruct (span_error text s'); discriminate); try discriminate.
  destruct (first_variant tenv f 0 us x) as [p|er|] eqn:Q; unfold ret, fail, oof; try discriminate; [|destruct (span_error text s'); discriminate].
  destruct (de_end s') as [u1 s2|er s2| |]; try (destruct (span_error text s2); discriminate); try discriminate.
  intros H. injection H as ->. apply first_drawn in Q as (k & u & -> & NE & D & F). exists x, u. auto.
Qed.
End Proofs.

(** ** Examples *)
#[local] Existing Instance Toy.
#[local] Existing Instance toy_xid.
#[local] Existing Instance toy_float.

(** enum U { A(u8, bool), B { a: HashMap<String, i32>, b: Option<Kind> } } *)
Definition ex_kind : ty := TEnum (lit "Kind") [(lit "X", WUnit); (lit "Y", WNew (TTuple [TInt U8; TStr])); (lit "Z", WStruct false [(lit "q", TChar)])].
Definition ex_variants : list uvariant :=
  [UTup [TInt U8; TBool]; UStruct (lit "B") true [(lit "a", TMap TStr (TInt I32)); (lit "b", TOption ex_kind)]].
Definition ex_held : val := VStruct (lit "B") [(lit "a", VMap [(VStr (lit "k"), VInt I32 (-1)%Z)]);
  (lit "b", VSome (VNewVariant (lit "Kind") (lit "Y") (VTuple [VInt U8 7; VStr (lit "s")])))].
Definition ex_held_text : str := lit "(a:{""k"":-1},b:Some(Y((7,""s""))))".
Example C53_ex : exists x, typed no_refs (fun k b => float_val k b /\ bound_fine false (VFloat k b)) (variant_type (nth 1 ex_variants UUnit)) ex_held /\
  restricted (extensions opts_default None) false false ex_held /\ room (need ex_held) (o_limit opts_default) /\
  to_string opts_default None ex_held = inl ex_held_text /\ options_from_str opts_default content_value ex_held_text = RValue x /\
  refuses no_refs x (nth 0 ex_variants UUnit) /\
  options_from_str opts_default (de_untagged no_refs 9 ex_variants) ex_held_text = RValue (1%nat, ex_held).
Proof.
  eexists. split; [|split; [|split; [|split; [|split; [|split]]]]].
  - apply ty_struct; [apply nodup_str; reflexivity|reflexivity|]. constructor; [|constructor; [|constructor]].
    + eexists. split; [left; reflexivity|]. apply ty_map. repeat constructor; try apply wf_lit; cbn; lia.
    + eexists. split; [right; left; reflexivity|]. apply ty_some. eapply ty_new_variant; [apply nodup_str; reflexivity|right; left; reflexivity|].
      repeat constructor; try apply wf_lit; cbn; lia.
  - cbn. repeat split; try discriminate; auto.
  - cbn. lia.
  - vm_compute. reflexivity.
  - vm_compute. reflexivity.
  - exists 1%nat. intros [|f] LF; [lia|]. eexists. cbn. reflexivity.
  - vm_compute. reflexivity.
Qed.

(** The same text with the other order of variants, and with an earlier variant
    that accepts it: only then does the position matter. *)
Example C53_order_ex : options_from_str opts_default (de_untagged no_refs 9 (rev ex_variants)) ex_held_text = RValue (0%nat, ex_held) /\
  options_from_str opts_default (de_untagged no_refs 9 [UNew (TOption (TInt U8)); UUnit]) (lit "()") = RValue (0%nat, VNone).
Proof. split; vm_compute; reflexivity. Qed.

(** enum U { A(Range<u8>, RangeFull, Option<RangeTo<f64>>), .. } with the
    compact notation for ranges *)
Definition ranges_on : option pconf :=
  Some (PConf None [10] [32;32;32;32] [32] false false false exts_empty false true false false false None true).
Definition ex_ranges_type : ty := TTuple [TStruct true s_Range [(s_start, TInt U8); (s_end, TInt U8)]; TUnitStruct s_RangeFull; TOption (TStruct true s_RangeTo [(s_end, TFloat F64)])].
Definition ex_ranges : val := VTuple [VStruct s_Range [(s_start, VInt U8 1); (s_end, VInt U8 5)]; VUnitStruct s_RangeFull; VSome (VStruct s_RangeTo [(s_end, VFloat F64 1)])].
Example C53_range_ex : typed no_refs (fun k b => float_val k b /\ bound_fine false (VFloat k b)) ex_ranges_type ex_ranges /\
  restricted (extensions opts_default ranges_on) true false ex_ranges /\ room (need ex_ranges) (o_limit opts_default) /\
  to_string opts_default ranges_on ex_ranges = inl (lit "(1..5, .., Some(..1.0))") /\
  options_from_str opts_default (de_untagged no_refs 9 [UNew ex_ranges_type]) (lit "(1..5, .., Some(..1.0))") = RValue (0%nat, ex_ranges).
Proof.
  split; [|split; [|split; [cbn; lia|split; vm_compute; reflexivity]]].
  - apply ty_tuple. constructor; [|constructor; [apply ty_unit_struct|constructor; [|constructor]]].
    + apply ty_struct; [apply nodup_str; reflexivity|reflexivity|]. constructor; [|constructor; [|constructor]]; (eexists; split; [cbn; auto|]; apply ty_int; reflexivity).
    + apply ty_some, ty_struct; [apply nodup_str; reflexivity|reflexivity|]. constructor; [|constructor]. eexists; split; [cbn; auto|]. apply ty_float. split; [split; reflexivity|exact Logic.I].
  - cbn [restricted ex_ranges all fst snd]. unfold ends_fine. repeat split; try discriminate; try lia; intros _ _ _; cbn; auto. left. split; reflexivity.
Qed.

(** Without the restrictions values are lost. *)
Definition lost (o : opts) (cfg : option pconf) (u : uvariant) (v : val) : Prop :=
  exists text r, to_string o cfg v = inl text /\ options_from_str o (de_untagged no_refs 20 [u]) text = r /\
    r <> RValue (0%nat, v) /\ r <> RDiverges.
Ltac lose := unfold lost; eexists _, _; split; [vm_compute; reflexivity|split; [vm_compute; reflexivity|split; discriminate]].
Definition with_exts (e : exts) : opts := Opts e (o_limit opts_default).
Definition some_on : opts := with_exts (Exts false true false false).
Definition unwrap_on : opts := with_exts (Exts false false true false).
Definition names_on : option pconf :=
  Some (PConf None [10] [32;32;32;32] [32] true false false exts_empty false true false false false None false).
Definition point : ty := TStruct true (lit "P") [(lit "a", TInt U8)].
Definition point_1 : val := VStruct (lit "P") [(lit "a", VInt U8 1)].
Theorem C53_struct_names_refuted : lost opts_default names_on (UNew point) point_1 /\
  lost (with_exts (Exts false false false true)) None (UNew point) point_1.
Proof. split; lose. Qed.
Theorem C53_newtype_refuted : lost opts_default None (UNew (TNewtype (lit "N") (TInt U8))) (VNewtype (lit "N") (VInt U8 1)).
Proof. lose. Qed.
Theorem C53_empty_refuted : lost opts_default None (UNew (TTupleStruct (lit "T") [])) (VTupleStruct (lit "T") []) /\
  lost opts_default None (UNew (TTuple [])) (VTuple []) /\
  lost opts_default None (UNew (TStruct false (lit "P") [])) (VStruct (lit "P") []) /\
  lost opts_default None (UNew (TEnum (lit "E") [(lit "A", WTup [])])) (VTupVariant (lit "E") (lit "A") []) /\
  lost opts_default None (UNew (TEnum (lit "E") [(lit "A", WStruct false [])])) (VStructVariant (lit "E") (lit "A") []).
Proof. split; [lose|split; [lose|split; [lose|split; lose]]]. Qed.
Theorem C53_one_field_variant_refuted :
  lost opts_default None (UNew (TEnum (lit "E") [(lit "A", WTup [TInt U8])])) (VTupVariant (lit "E") (lit "A") [VInt U8 1]).
Proof. lose. Qed.
Theorem C53_one_element_refuted :
  lost unwrap_on None (UNew (TEnum (lit "E") [(lit "A", WNew (TTuple [TInt U8]))])) (VNewVariant (lit "E") (lit "A") (VTuple [VInt U8 1])) /\
  lost unwrap_on None (UNew (TOption (TTuple [TInt U8]))) (VSome (VTuple [VInt U8 1])).
Proof. split; lose. Qed.
Theorem C53_implicit_unit_refuted : lost some_on None (UNew (TOption TUnit)) (VSome VUnit) /\
  lost some_on None (UNew (TOption (TUnitStruct (lit "U")))) (VSome (VUnitStruct (lit "U"))).
Proof. split; lose. Qed.
Theorem C53_wide_integer_refuted : lost opts_default None (UNew (TInt U128)) (VInt U128 1) /\
  lost opts_default None (UNew (TInt I128)) (VInt I128 (-1)).
Proof. split; lose. Qed.
(** a half-open range that ends at infinity or a NaN *)
Theorem C53_range_end_refuted : lost opts_default ranges_on (UNew (TStruct true s_RangeTo [(s_end, TFloat F64)])) (VStruct s_RangeTo [(s_end, VFloat F64 (f_inf F64))]) /\
  lost opts_default ranges_on (UNew (TStruct true s_Range [(s_start, TFloat F64); (s_end, TFloat F64)])) (VStruct s_Range [(s_start, VFloat F64 1); (s_end, VFloat F64 (f_nan F64))]).
Proof. split; lose. Qed.
(** A tuple variant does not take a longer tuple. *)
Example C53_drawn_ex :
  options_from_str opts_default (de_untagged no_refs 9 [UTup [TInt U8]; UTup [TInt U8; TInt U8]]) (lit "(1,2)") = RValue (1%nat, VTuple [VInt U8 1; VInt U8 2]).
Proof. vm_compute. reflexivity. Qed.
Print Assumptions C53_round_trip_partial.
Print Assumptions C53_drawn.
Print Assumptions C53_struct_names_refuted.
Print Assumptions C53_newtype_refuted.
Print Assumptions C53_empty_refuted.
Print Assumptions C53_one_field_variant_refuted.
Print Assumptions C53_one_element_refuted.
Print Assumptions C53_implicit_unit_refuted.
Print Assumptions C53_wide_integer_refuted.
Print Assumptions C53_range_end_refuted.
