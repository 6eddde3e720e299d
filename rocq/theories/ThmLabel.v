(** C46: which struct or variant an error about a field names.  [fails] is in
    [StructSpec]. *)
From Coq Require Import String Ascii NArith ZArith Lia Bool List.
From Coq Require Import ZifyBool ZifyNat ZifyN.
From Verif Require Import Base Facts Value Data Parse De Span Wp EnvOk Layout Lit Attr LexRead DocSafe DocRead Fuel Repr ReprFacts VRepr Accept AnyRead TypedRead TypedMain StructSpec StructRead FailRead Blame Toy ThmStruct.
Import ListNotations.
Open Scope N_scope.
Open Scope list_scope.

Section Proofs.
Context {E : Env} {X : XidOk E} {FO : FloatOk E}.

(** a mistake in the fields of a struct or struct variant, however deep, is
    reported with the name of that struct or variant *)
Theorem C46_innermost tenv fok o w0 at0 a c T t x :
  layout w0 -> attrs_text at0 a -> fails (exts_or a (o_exts o)) tenv fok c T t x -> room c (o_limit o) ->
  exists n, forall f, (n <= f)%nat -> exists sp,
    options_from_str o (de_ty tenv f T) (w0 ++ at0 ++ t) = RError x sp.
Proof.
  intros L HA H RM. destruct (fails_read _ _ _ _ _ _ _ H) as (O & _ & n & F). exists n. intros f LF.
  specialize (F f LF). rewrite <- (app_nil_r t). eapply document_fails; [exact L|exact HA| | |apply no_panic].
  - rewrite app_nil_r. now apply opens_value_start.
  - intros TT s J Hs He Hn Hl _. apply (F TT s []); auto; [reflexivity|now rewrite Hl].
Qed.

(** and any such error, on any text, is one about a struct or struct variant
    that it names and that is in the type asked for: a missing field is a
    field of it that is not an option, a duplicate one is a field of it, and
    an unknown one is not *)
Theorem C46_label tenv o w0 at0 a f T body x sp :
  layout w0 -> attrs_text at0 a -> value_start body -> x_unwrap_variant_newtypes (exts_or a (o_exts o)) = false ->
  (forall deny fields, ~ within tenv (TStruct deny [] fields) T) ->
  options_from_str o (de_ty tenv f T) (w0 ++ at0 ++ body) = RError x sp -> field_error x -> blames tenv T x.
Proof.
  intros L HA V UV NM H F. set (text := w0 ++ at0 ++ body) in *. unfold options_from_str, spanned, from_str in H.
  assert (D : match document o (de_ty tenv f T) (init_state text) with Err y _ => field_error y -> blames tenv T y | _ => True end).
  { unfold document. assert (W := wp_parser_new w0 at0 a body text (init_state text) L HA V (init_inv text) eq_refl).
    Transparent wp. unfold wp in W. Opaque wp. unfold bind at 1. destruct (parser_new (init_state text)) as [u s1|y s1| |]; try contradiction.
    destruct W as (_ & _ & X1 & N1 & _). unfold bind at 1, modify at 1.
    match goal with |- match bind _ _ ?s with _ => _ end => set (s2 := s) end.
    assert (TT := tri_ty (exts_or a (o_exts o)) UV tenv f T NM s2).
    unfold bind at 1. destruct (de_ty tenv f T s2) as [v s3|y s3| |]; auto.
    - unfold de_end, bind at 1 2. assert (Q := quiet_skip_ws s3). destruct (skip_ws s3) as [u3 s4|y s4| |]; auto.
      + cbn. destruct (rest s4); cbn; auto. intros FE. inversion FE.
      + intros FE. apply field_label in FE. now destruct Q.
    - apply TT; [subst s2; cbn; now rewrite X1|exact N1]. }
  destruct (document o (de_ty tenv f T) (init_state text)) as [v s'|y s'| |]; try discriminate.
  destruct (span_error text s'); [|discriminate]. injection H as -> _. auto.
Qed.

(** an unknown variant is reported under the name of an enum that is in the
    type asked for and has no such variant, with or without the extension *)
Theorem C46_variant tenv o f T text v l sp :
  (forall variants, ~ within tenv (TEnum [] variants) T) ->
  options_from_str o (de_ty tenv f T) text = RError (ENoSuchEnumVariant v l) sp ->
  exists name variants, within tenv (TEnum name variants) T /\ ~ In v (map fst variants) /\ l = Some name.
Proof.
  intros NM H. unfold options_from_str, spanned, from_str in H.
  assert (D := vtri_document _ o _ (vtri_ty tenv f T NM) (init_state text)).
  destruct (document o (de_ty tenv f T) (init_state text)) as [w s'|y s'| |]; try discriminate.
  destruct (span_error text s'); [|discriminate]. injection H as -> _. exact D.
Qed.
End Proofs.
Print Assumptions C46_innermost.
Print Assumptions C46_label.
Print Assumptions C46_variant.

(** ** Examples *)
#[local] Existing Instance Toy.
#[local] Existing Instance toy_xid.
#[local] Existing Instance toy_float.
Definition ex_inner : ty := TStruct true (lit "Inner") ex_fields.
Definition ex_outer : ty := TStruct false (lit "Outer") [(lit "o", TOption ex_inner); (lit "z", TBool)].

Example C46_ex_fails : fails exts_empty ex_env ex_fok 9 ex_outer (lit "(z:true,o:Some((b:true,y") (ENoSuchStructField (lit "y") (Some (lit "Inner"))).
Proof.
  refine (f_field exts_empty ex_env ex_fok 7 ex_outer false [(lit "o", TOption ex_inner); (lit "z", TBool)] (VStruct (lit "Outer")) (lit "Outer") 2 []
    [] [(lit "z", Some (VBool true))] (lit "z:true,") (lit "o") (TOption ex_inner) (lit "o") [] [] (lit "Some((b:true,y") _ _ _ _ _ _ _ _ _ _ _ _);
    [| | | | | | | | | |]; cbn.
  - constructor; [discriminate|]. now apply nm_none.
  - repeat constructor; cbn; intuition discriminate.
  - constructor.
  - refine (op_cons _ (lit "z", Some (VBool true)) (lit "z:true") [] [] [] [] _ _ _ _); try constructor.
    refine (fe_known exts_empty ex_env ex_fok false _ 7 (lit "z") TBool (VBool true) (lit "z") [] [] (lit "true") _ _ _ _ _ _ _);
      [cbn; tauto|now constructor|cbn; lia|now apply ex_ident|constructor|constructor|apply (r_bool _ _ true)].
  - repeat constructor; cbn; intuition discriminate.
  - tauto.
  - intuition discriminate.
  - now apply ex_ident.
  - constructor.
  - constructor.
  - refine (f_some exts_empty ex_env ex_fok 6 ex_inner [] [] (lit "(b:true,y") _ _ _ _ _); [reflexivity|constructor|constructor|].
    refine (f_unknown exts_empty ex_env ex_fok 4 ex_inner true ex_fields (VStruct (lit "Inner")) (lit "Inner") 2 [] []
      [(lit "b", Some (VBool true))] (lit "b:true,") (lit "y") (lit "y") [] _ _ _ _ _ _ _ _ _).
    + constructor; [discriminate|]. now apply nm_none.
    + repeat constructor; cbn; intuition discriminate.
    + constructor.
    + refine (op_cons _ (lit "b", Some (VBool true)) (lit "b:true") [] [] [] [] _ _ _ _); try constructor.
      refine (fe_known exts_empty ex_env ex_fok true _ 4 (lit "b") TBool (VBool true) (lit "b") [] [] (lit "true") _ _ _ _ _ _ _);
        [cbn; tauto|now constructor|cbn; lia|now apply ex_ident|constructor|constructor|apply (r_bool _ _ true)].
    + repeat constructor; cbn; intuition discriminate.
    + reflexivity.
    + cbn. intuition discriminate.
    + now apply ex_ident.
    + constructor.
Qed.
Example C46_ex : exists sp,
  options_from_str opts_default (de_ty ex_env 9 ex_outer) (lit "(z:true,o:Some((b:true,y") = RError (ENoSuchStructField (lit "y") (Some (lit "Inner"))) sp.
Proof. eexists. vm_compute. reflexivity. Qed.
Example C46_variant_ex : exists sp,
  options_from_str opts_default (de_ty ex_env 9 (TEnum (lit "Outer") [(lit "A", WNew (TEnum (lit "Inner") [(lit "B", WUnit)]))])) (lit "A(C)") =
    RError (ENoSuchEnumVariant (lit "C") (Some (lit "Inner"))) sp.
Proof. eexists. vm_compute. reflexivity. Qed.
(** the types within [ex_outer] *)
Definition ex_types : list ty := [ex_outer; TOption ex_inner; TBool; ex_inner; TOption TChar; TChar].
Lemma ex_part T : In T ex_types -> forall U, part ex_env U T -> In U ex_types.
Proof.
  intros IN V P. unfold ex_types. repeat destruct IN as [<-|IN]; inversion P; subst; cbn in *;
    repeat match goal with H : _ \/ _ |- _ => destruct H | H : (_, _) = (_, _) |- _ => injection H as <- <- end; auto 9; contradiction.
Qed.
Lemma ex_within U : within ex_env U ex_outer -> In U ex_types.
Proof.
  intros W. assert (IN : In ex_outer ex_types) by now left. revert IN. generalize ex_types ex_part. intros l C.
  induction W as [T|U V T W IH P]; intros IN; [exact IN|]. apply IH. eapply C; eauto.
Qed.
Lemma ex_named deny fields : ~ within ex_env (TStruct deny [] fields) ex_outer.
Proof. intros W. apply ex_within in W. cbn in W. intuition discriminate. Qed.

(** With [unwrap_variant_newtypes] the claim fails: inside [Some(...)] the
    fields of a struct follow without a pair of parentheses of their own, and
    then an error in them names the struct around the option. *)
Theorem C46_refuted : exists tenv f T text x sp, (forall deny fields, ~ within tenv (TStruct deny [] fields) T) /\
  options_from_str opts_default (de_ty tenv f T) text = RError x sp /\ field_error x /\ ~ blames tenv T x.
Proof.
  exists ex_env, 9%nat, ex_outer, (lit "#![enable(unwrap_variant_newtypes)](o:Some(b:true),z:true)"),
    (EMissingStructField (lit "x") (Some (lit "Outer"))). eexists.
  split; [exact ex_named|]. split; [vm_compute; reflexivity|]. split; [constructor|].
  intros (U & label & deny & fields & W & D & MX). inversion MX; subst. apply ex_within in W. cbn in W.
  repeat destruct W as [<-|W]; inversion D; subst; cbn in *; intuition discriminate.
Qed.
Print Assumptions C46_refuted.
