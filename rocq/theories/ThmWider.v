(** C60: implicit_some only makes more documents readable,
    explicit_struct_names fewer; what is read stays the same. *)
From Coq Require Import String Ascii NArith ZArith Lia Bool List.
From Verif Require Import Base Facts Value Data Parse De Span Limit Content Tagged Adjacent Flatten Wider Toy ThmTyped.
Import ListNotations.
Open Scope N_scope.
Open Scope list_scope.
Open Scope m_scope.

Section Proofs.
Context {E : Env}.
Lemma wider_or x e e' : wider e e' -> wider (exts_or x e) (exts_or x e').
Proof.
  intros (H1 & H2 & H3 & H4). destruct x, e, e'. unfold wider in *. cbn in *. subst. repeat split; rewrite ?orb_true_iff; tauto.
Qed.
Lemma reads_wider {A} (m : M A) o o' text v : sm m -> wider (o_exts o) (o_exts o') -> o_limit o' = o_limit o ->
  options_from_str o m text = RValue v -> options_from_str o' m text = RValue v.
Proof.
  intros H W L. unfold options_from_str, spanned. rewrite !from_str_eq.
  destruct (parser_new (init_state text)) as [u s|x s| |]; auto.
  set (k := bind m _). assert (K : sm k) by (apply sm_bind; [exact H|intros a; apply sm_bind; [apply sm_end|intros []; apply deaf_sm, deaf_ret]]).
  specialize (K (exts_or (ext s) (o_exts o')) (set_lim (o_limit o) (set_ext (exts_or (ext s) (o_exts o)) s)) (wider_or _ _ _ W)).
  rewrite L. change (set_lim (o_limit o) (set_ext (exts_or (ext s) (o_exts o')) s)) with
    (set_ext (exts_or (ext s) (o_exts o')) (set_lim (o_limit o) (set_ext (exts_or (ext s) (o_exts o)) s))).
  destruct (k (set_lim _ _)) as [a s1|x s1| |]; [|destruct (span_error text s1); discriminate|discriminate|discriminate].
  destruct K as [_ ->]. auto.
Qed.
(** at every type *)
Theorem C60_typed tenv o o' f T text v : wider (o_exts o) (o_exts o') -> o_limit o' = o_limit o ->
  options_from_str o (de_ty tenv f T) text = RValue v -> options_from_str o' (de_ty tenv f T) text = RValue v.
Proof. apply reads_wider, sm_ty. Qed.
(** and as a Value *)
Theorem C60_untyped o o' text x : wider (o_exts o) (o_exts o') -> o_limit o' = o_limit o ->
  options_from_str o any_value text = RValue x -> options_from_str o' any_value text = RValue x.
Proof. apply reads_wider, sm_any_value. Qed.
(** derived enums without, with an inner and with an outer tag *)
Theorem C60_untagged tenv o o' f us text p : wider (o_exts o) (o_exts o') -> o_limit o' = o_limit o ->
  options_from_str o (de_untagged tenv f us) text = RValue p -> options_from_str o' (de_untagged tenv f us) text = RValue p.
Proof. apply reads_wider, sm_untagged. Qed.
Theorem C60_tagged tenv o o' f tag name vs text v : wider (o_exts o) (o_exts o') -> o_limit o' = o_limit o ->
  options_from_str o (de_tagged tenv f tag name vs) text = RValue v -> options_from_str o' (de_tagged tenv f tag name vs) text = RValue v.
Proof. apply reads_wider, sm_tagged. Qed.
Theorem C60_adjacent tenv o o' f tag content deny name vs text v : wider (o_exts o) (o_exts o') -> o_limit o' = o_limit o ->
  options_from_str o (de_adjacent tenv f tag content deny name vs) text = RValue v ->
  options_from_str o' (de_adjacent tenv f tag content deny name vs) text = RValue v.
Proof. apply reads_wider, sm_adjacent. Qed.
(** and structs with flattened fields *)
Theorem C60_flat tenv o o' f deny name ds text v : wider (o_exts o) (o_exts o') -> o_limit o' = o_limit o ->
  options_from_str o (de_flat tenv f deny name ds) text = RValue v -> options_from_str o' (de_flat tenv f deny name ds) text = RValue v.
Proof. apply reads_wider, sm_flat. Qed.
End Proofs.
Print Assumptions C60_typed.
Print Assumptions C60_untyped.
Print Assumptions C60_untagged.
Print Assumptions C60_tagged.
Print Assumptions C60_adjacent.
Print Assumptions C60_flat.

(** ** Examples *)
#[local] Existing Instance Toy.
Definition explicit : opts := Opts (Exts false false false true) (Some 128%nat).
Definition implicit : opts := Opts (Exts false true false false) (Some 128%nat).
Definition ex_opt : ty := TStruct false (lit "S") [(lit "a", TOption (TInt U8)); (lit "b", TOption TBool)].
Example C60_ex : wider (o_exts explicit) (o_exts opts_default) /\ wider (o_exts opts_default) (o_exts implicit) /\ wider (o_exts explicit) (o_exts implicit) /\
  (let r := RValue (VStruct (lit "S") [(lit "a", VSome (VInt U8 1)); (lit "b", VNone)]) in
   options_from_str explicit (de_ty no_refs 4 ex_opt) (lit "S(a: Some(1), b: None)") = r /\
   options_from_str opts_default (de_ty no_refs 4 ex_opt) (lit "S(a: Some(1), b: None)") = r /\
   options_from_str implicit (de_ty no_refs 4 ex_opt) (lit "S(a: Some(1), b: None)") = r /\
   options_from_str opts_default (de_ty no_refs 4 ex_opt) (lit "(a: Some(1), b: None)") = r /\
   (exists p, options_from_str explicit (de_ty no_refs 4 ex_opt) (lit "(a: Some(1), b: None)") = RError (EExpectedStructName (lit "S")) p) /\
   options_from_str implicit (de_ty no_refs 4 ex_opt) (lit "(a: 1)") = r /\
   exists p, options_from_str opts_default (de_ty no_refs 4 ex_opt) (lit "(a: 1)") = RError EExpectedOption p).
Proof.
  split; [|split; [|split; [|cbv zeta]]]; [repeat split; discriminate || reflexivity..|].
  do 4 (split; [vm_compute; reflexivity|]). split; [eexists; vm_compute; reflexivity|]. split; [vm_compute; reflexivity|]. eexists. vm_compute. reflexivity.
Qed.
Definition ex_us : list uvariant := [UNew TBool; UStruct (lit "B") false [(lit "x", TOption (TInt U8))]].
Definition ex_ivs : list (str * ivariant) := [(lit "A", IStruct false [(lit "x", TOption (TInt U8))])].
Definition ex_avs : list (str * avariant) := [(lit "A", ANew (TOption (TInt U8)))].
Definition ex_ds : list (str * fdecl) := [(lit "x", FOwn (TOption (TInt U8))); (lit "m", FMap TBool)].
Example C60_ex_derived :
  (let r := RValue (1%nat, VStruct (lit "B") [(lit "x", VSome (VInt U8 1))]) in
   options_from_str explicit (de_untagged no_refs 4 ex_us) (lit "(x:Some(1))") = r /\ options_from_str implicit (de_untagged no_refs 4 ex_us) (lit "(x:Some(1))") = r) /\
  (let r := RValue (VStructVariant (lit "E") (lit "A") [(lit "x", VSome (VInt U8 1))]) in
   options_from_str explicit (de_tagged no_refs 4 (lit "t") (lit "E") ex_ivs) (lit "(t:""A"",x:Some(1))") = r /\
   options_from_str implicit (de_tagged no_refs 4 (lit "t") (lit "E") ex_ivs) (lit "(t:""A"",x:Some(1))") = r) /\
  (let r := RValue (VNewVariant (lit "E") (lit "A") (VSome (VInt U8 1))) in
   options_from_str explicit (de_adjacent no_refs 4 (lit "t") (lit "c") false (lit "E") ex_avs) (lit "E(t:A,c:Some(1))") = r /\
   options_from_str implicit (de_adjacent no_refs 4 (lit "t") (lit "c") false (lit "E") ex_avs) (lit "E(t:A,c:Some(1))") = r /\
   options_from_str implicit (de_adjacent no_refs 4 (lit "t") (lit "c") false (lit "E") ex_avs) (lit "(t:A,c:1)") = r /\
   exists p, options_from_str explicit (de_adjacent no_refs 4 (lit "t") (lit "c") false (lit "E") ex_avs) (lit "(t:A,c:1)") = RError (EExpectedStructName (lit "E")) p) /\
  (let r := RValue (VStruct (lit "S") [(lit "x", VSome (VInt U8 1)); (lit "m", VMap [(VStr (lit "k"), VBool true)])]) in
   options_from_str explicit (de_flat no_refs 4 false (lit "S") ex_ds) (lit "{""k"":true,""x"":Some(1)}") = r /\
   options_from_str implicit (de_flat no_refs 4 false (lit "S") ex_ds) (lit "{""k"":true,""x"":Some(1)}") = r).
Proof.
  split; [split; vm_compute; reflexivity|]. split; [split; vm_compute; reflexivity|].
  split; [cbv zeta; do 3 (split; [vm_compute; reflexivity|]); eexists; vm_compute; reflexivity|]. split; vm_compute; reflexivity.
Qed.
(** the other two extensions make readable documents unreadable *)
Theorem C60_unwrap_newtypes_refuted : exists o T text v e p, o_exts o = Exts true false false false /\
  options_from_str opts_default (de_ty no_refs 4 T) text = RValue v /\ options_from_str o (de_ty no_refs 4 T) text = RError e p.
Proof. exists (Opts (Exts true false false false) (Some 128%nat)), (TNewtype (lit "A") TBool), (lit "A(true)"). eexists _, _, _. split; [reflexivity|]. split; vm_compute; reflexivity. Qed.
Theorem C60_unwrap_variant_newtypes_refuted : exists o T text v e p, o_exts o = Exts false false true false /\
  options_from_str opts_default (de_ty no_refs 4 T) text = RValue v /\ options_from_str o (de_ty no_refs 4 T) text = RError e p.
Proof.
  exists (Opts (Exts false false true false) (Some 128%nat)), (TEnum (lit "E") [(lit "A", WNew (TTuple [TBool; TBool]))]), (lit "A((true, false))").
  eexists _, _, _. split; [reflexivity|]. split; vm_compute; reflexivity.
Qed.
Print Assumptions C60_unwrap_newtypes_refuted.
Print Assumptions C60_unwrap_variant_newtypes_refuted.
