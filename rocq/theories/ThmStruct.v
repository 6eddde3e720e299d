(** C39: the fields of structs and of struct variants.  [field_entry] and
    [struct_head] are in [StructSpec], [given] and [struct_of] in [Accept]. *)
From Coq Require Import String Ascii NArith ZArith Lia Bool List.
From Coq Require Import ZifyBool ZifyNat ZifyN.
From Verif Require Import Base Facts Value Data Parse De Span EnvOk Layout Lit Attr LexRead DocRead Repr VRepr Accept TypedRead TypedMain StructSpec StructRead Toy.
Import ListNotations.
Open Scope N_scope.
Open Scope list_scope.

Section Proofs.
Context {E : Env} {X : XidOk E} {FO : FloatOk E}.

Lemma struct_of_collected opt fields ents fs : struct_of opt fields ents fs ->
  Forall2 (collected opt (rev (known ents))) fields fs.
Proof.
  intros (ND & EQ & F). change (known ents) with (given ents).
  assert (NDR : NoDup (map fst (rev (given ents)))) by (rewrite map_rev; now apply NoDup_rev).
  revert EQ. induction F as [|[k T] [k' v] fl fs H F IH]; intros EQ; constructor.
  - cbn [map fst] in EQ. injection EQ as -> _. split; [reflexivity|]. cbn [fst snd] in *.
    destruct H as [IN|(O & -> & NI)].
    + rewrite (assoc_in k v); [reflexivity|exact NDR|now apply -> in_rev].
    + rewrite assoc_none; [now split|]. rewrite map_rev, <- in_rev. exact NI.
  - apply IH. now injection EQ.
Qed.

Section Document.
Variable tenv : nat -> ty.
Variable fok : fk -> N -> Prop.
Variable o : opts.
(** a document's start: layout and attributes, which enable [a] *)
Variables (w0 at0 : str) (a : exts).
Hypothesis LW : layout w0.
Hypothesis HA : attrs_text at0 a.
Notation e := (exts_or a (o_exts o)).
(** the struct or struct variant, what is written before its fields, and room
    for it and values nested [c] deep *)
Variables (T : ty) (deny : bool) (fields : list (str * ty)) (mk : list (str * val) -> val) (label : str) (h : nat) (th w : str).
Hypothesis HH : struct_head e T deny fields mk label h th.
Hypothesis ND : NoDup (map fst fields).
Hypothesis L : layout w.
Variable c : nat.
Hypothesis RM : room (h + c) (o_limit o).

(** fields in any order, unknown ones anywhere between them, and options left
    out *)
Theorem C39_reads ents t fs w1 : items (field_entry e tenv fok deny fields c) ents t -> final_layout w1 ->
  struct_of (is_option tenv) fields ents fs ->
  exists n, forall f, (n <= f)%nat ->
    options_from_str o (de_ty tenv f T) (w0 ++ at0 ++ (th ++ c_lp :: (w ++ t) ++ [c_rp]) ++ w1) = RValue (mk fs).
Proof.
  intros I FL S. eapply (struct_document e tenv fok o w0 at0 a LW HA eq_refl T deny fields mk label h th w HH ND L c RM); eauto.
  - now apply struct_of_collected.
  - apply S.
Qed.
(** a field given twice, at the second name, whatever comes after it *)
Theorem C39_duplicate ents t tk k r : opened (field_entry e tenv fok deny fields c) ents t -> NoDup (map fst (given ents)) ->
  In k (map fst (given ents)) -> ident_lit tk k -> ident_end r ->
  exists n, forall f, (n <= f)%nat -> exists sp,
    options_from_str o (de_ty tenv f T) (w0 ++ at0 ++ (th ++ c_lp :: w ++ t ++ tk) ++ r) =
    RError (EDuplicateStructField k (Some label)) sp.
Proof. eapply struct_duplicate; eauto. Qed.
(** the first field that is left out and is not an option *)
Theorem C39_missing ents t k Tk before after r : items (field_entry e tenv fok deny fields c) ents t -> NoDup (map fst (given ents)) ->
  fields = before ++ (k, Tk) :: after ->
  Forall (fun ft => In (fst ft) (map fst (given ents)) \/ is_option tenv (snd ft) = true) before ->
  ~ In k (map fst (given ents)) -> is_option tenv Tk = false ->
  exists n, forall f, (n <= f)%nat -> exists sp,
    options_from_str o (de_ty tenv f T) (w0 ++ at0 ++ (th ++ c_lp :: w ++ t) ++ c_rp :: r) =
    RError (EMissingStructField k (Some label)) sp.
Proof. eapply struct_missing; eauto. Qed.
(** with [deny_unknown_fields] *)
Theorem C39_unknown_denied ents t tk k r : opened (field_entry e tenv fok deny fields c) ents t -> NoDup (map fst (given ents)) ->
  deny = true -> ~ In k (map fst fields) -> ident_lit tk k -> ident_end r ->
  exists n, forall f, (n <= f)%nat -> exists sp,
    options_from_str o (de_ty tenv f T) (w0 ++ at0 ++ (th ++ c_lp :: w ++ t ++ tk) ++ r) =
    RError (ENoSuchStructField k (Some label)) sp.
Proof. eapply struct_unknown; eauto. Qed.
End Document.
End Proofs.
Print Assumptions C39_reads.
Print Assumptions C39_duplicate.
Print Assumptions C39_missing.
Print Assumptions C39_unknown_denied.

(** ** Examples *)
#[local] Existing Instance Toy.
#[local] Existing Instance toy_xid.
#[local] Existing Instance toy_float.
Definition ex_fields : list (str * ty) := [(lit "b", TBool); (lit "o", TOption TChar); (lit "x", TChar)].
Definition ex_variants : list (str * vty) := [(lit "U", WUnit); (lit "V", WStruct false ex_fields)].
Definition ex_ents : list (str * option val) := [(lit "z", None); (lit "x", Some (VChar 99)); (lit "b", Some (VBool true))].
Definition ex_text := lit "z:[Foo(),{}] ,x:'c',b:true,".
Definition ex_fs : list (str * val) := [(lit "b", VBool true); (lit "o", VNone); (lit "x", VChar 99)].
Definition ex_env : nat -> ty := fun _ => TUnit.
Definition ex_fok (_ : fk) (_ : N) : Prop := True.
Lemma ex_ident c r : is_ident_first_char c = true -> forallb xid_continue r = true -> ident_lit (c :: r) (c :: r).
Proof. now constructor. Qed.
Example C39_ex_entries : items (field_entry exts_empty ex_env ex_fok false ex_fields 4) ex_ents ex_text.
Proof.
  change ex_text with (lit "z:[Foo(),{}]" ++ lit " " ++ c_comma :: [] ++ lit "x:'c'" ++ [] ++ c_comma :: [] ++ lit "b:true" ++ [] ++ c_comma :: [] ++ []).
  apply it_cons; [| |constructor|apply it_cons; [|constructor..|apply it_cons; [|constructor..]]].
  - refine (fe_unknown exts_empty ex_env ex_fok false ex_fields 4 (lit "z") (XSeq [XSeq []; XMap []]) (lit "z") [] [] (lit "[Foo(),{}]") _ eq_refl eq_refl _ _ _ _ _);
      [cbn; intuition discriminate|cbn; lia|now apply ex_ident|constructor|constructor|].
    refine (v_seq [XSeq []; XMap []] (lit "Foo()" ++ [] ++ c_comma :: [] ++ lit "{}" ++ []) [] (l_nil) _).
    constructor; [|constructor..|constructor; [|constructor]].
    + refine (v_tuple (lit "Foo") [] [] [] _ l_nil _ _); [|constructor|discriminate].
      refine (an_some (lit "Foo") (lit "Foo") [] _ _ _); [now apply ex_ident|cbn; intuition discriminate|constructor].
    + refine (v_map [] [] [] l_nil _). constructor.
  - apply (l_ws 32); [reflexivity|constructor].
  - refine (fe_known exts_empty ex_env ex_fok false ex_fields 4 (lit "x") TChar (VChar 99) (lit "x") [] [] (lit "'c'") _ _ _ _ _ _ _);
      [cbn; tauto|now constructor|cbn; lia|now apply ex_ident|constructor|constructor|]. apply r_char, cl_plain. discriminate.
  - refine (fe_known exts_empty ex_env ex_fok false ex_fields 4 (lit "b") TBool (VBool true) (lit "b") [] [] (lit "true") _ _ _ _ _ _ _);
      [cbn; tauto|now constructor|cbn; lia|now apply ex_ident|constructor|constructor|]. apply (r_bool _ _ true).
Qed.
Example C39_ex_struct : struct_head exts_empty (TStruct false (lit "P") ex_fields) false ex_fields (VStruct (lit "P")) (lit "P") 2 (lit "P") /\
  struct_head exts_empty (TEnum (lit "E") ex_variants) false ex_fields (VStructVariant (lit "E") (lit "V")) (lit "V") 3 (lit "V") /\
  struct_of (is_option ex_env) ex_fields ex_ents ex_fs /\ room (3 + 4) (o_limit opts_default).
Proof.
  split; [|split].
  - constructor; [discriminate|]. apply (nm_some _ _ true (lit "P") (lit "P") []); [exact Logic.I|now apply ex_ident|constructor|reflexivity].
  - apply (sh_variant _ (lit "E") ex_variants (lit "V") false ex_fields (lit "V") []); [|cbn; tauto|now apply ex_ident|constructor].
    cbn. repeat constructor; cbn; intuition discriminate.
  - split; [|cbn; lia]. split; [cbn; repeat constructor; cbn; intuition discriminate|]. split; [reflexivity|].
    apply Forall2_cons; [|apply Forall2_cons; [|apply Forall2_cons; [|apply Forall2_nil]]]; cbn; [left; tauto|right; intuition discriminate|left; tauto].
Qed.
Example C39_ex :
  options_from_str opts_default (de_ty ex_env 9 (TStruct false (lit "P") ex_fields)) (lit "P(" ++ ex_text ++ lit ")") = RValue (VStruct (lit "P") ex_fs) /\
  options_from_str opts_default (de_ty ex_env 9 (TEnum (lit "E") ex_variants)) (lit "V(" ++ ex_text ++ lit ")") = RValue (VStructVariant (lit "E") (lit "V") ex_fs) /\
  (exists sp, options_from_str opts_default (de_ty ex_env 9 (TStruct false (lit "P") ex_fields)) (lit "(" ++ ex_text ++ lit "x: ?") =
    RError (EDuplicateStructField (lit "x") (Some (lit "P"))) sp) /\
  (exists sp, options_from_str opts_default (de_ty ex_env 9 (TEnum (lit "E") ex_variants)) (lit "V(b:false)") =
    RError (EMissingStructField (lit "x") (Some (lit "V"))) sp) /\
  (exists sp, options_from_str opts_default (de_ty ex_env 9 (TStruct true (lit "P") ex_fields)) (lit "(b:false,y") =
    RError (ENoSuchStructField (lit "y") (Some (lit "P"))) sp).
Proof. split; [vm_compute; reflexivity|]. split; [vm_compute; reflexivity|]. repeat split; eexists; vm_compute; reflexivity. Qed.
