(** C44, C45, C50, C51: what is accepted at all.  [acc], [vacc], [leaf] and
    [name_acc] are in [Accept], the literals in [Lit], the attributes in
    [Attr], layout in [Layout]. *)
From Coq Require Import String Ascii NArith ZArith Lia Bool List.
From Coq Require Import ZifyBool ZifyNat ZifyN.
From Verif Require Import Base Facts Value Data Parse De Span Wp EnvOk LexSafe DeSafe Layout Lit Attr Inv Repr Accept Sound DocSound Toy Keep.
Import ListNotations.
Open Scope N_scope.
Open Scope list_scope.

(** [text] is a document whose value is spelled [t], under the extensions [x] *)
Definition spells {E : Env} (o : opts) (text t : str) (x : exts) : Prop :=
  exists w a y w', text = w ++ a ++ t ++ w' /\ layout w /\ attrs_text a y /\ final_layout w' /\ x = exts_or y (o_exts o).

Section Proofs.
Context {E : Env} {X : XidOk E}.

(** C50: whatever the type, a document is only accepted if it is layout,
    attributes, a text in the grammar and layout; and the text does not nest
    deeper than the recursion limit. *)
Theorem C50_accepted_documents tenv o f T text v : options_from_str o (de_ty tenv f T) text = RValue v ->
  exists t x d, spells o text t x /\ acc x tenv false T v t d /\ within d (o_limit o).
Proof.
  intros H. apply document_sound in H as (w & a & y & t & w' & d & Q & L & A & AC & F & D).
  exists t, (exts_or y (o_exts o)), d. split; [|auto]. exists w, a, y, w'. auto.
Qed.

(** the same in the middle of a document, wherever a value is read: [ready] says
    that layout has just been skipped *)
Theorem C50_accepted_inside tenv f T text s v s' : inv text s -> ready s -> nt s = false -> de_ty tenv f T s = Ok v s' ->
  exists t w d, rest s = t ++ w ++ rest s' /\ (layout w \/ (rest s' = [] /\ final_layout w)) /\
    acc (ext s) tenv false T v t d /\ within d (lim s).
Proof.
  intros I R N H. destruct (proj2 (de_ty_ok (ext s) tenv f false T) text s v s' I R eq_refl N H) as (_ & t & w & d & HH). exists t, w, d. exact HH.
Qed.

(** C51: literals *)
Definition scalar (T : ty) : bool :=
  match T with TBool | TInt _ | TFloat _ | TChar | TStr => true | _ => false end.
Theorem C51_literals tenv o f T text v : scalar T = true -> options_from_str o (de_ty tenv f T) text = RValue v ->
  exists t x, spells o text t x /\ leaf T v t.
Proof.
  intros S H. apply C50_accepted_documents in H as (t & x & d & SP & AC & _). exists t, x. split; [assumption|].
  destruct T; try discriminate S; inversion AC; subst; assumption.
Qed.
Theorem C51_strings tenv o f text v : options_from_str o (de_ty tenv f TStr) text = RValue v ->
  exists t x s, spells o text t x /\ v = VStr s /\ string_lit t s.
Proof.
  intros H. apply C51_literals in H as (t & x & SP & L); [|reflexivity]. inversion L; subst. eauto 12.
Qed.
Theorem C51_chars tenv o f text v : options_from_str o (de_ty tenv f TChar) text = RValue v ->
  exists t x c, spells o text t x /\ v = VChar c /\ char_lit t c.
Proof.
  intros H. apply C51_literals in H as (t & x & SP & L); [|reflexivity]. inversion L; subst. eauto 12.
Qed.
Theorem C51_integers tenv o f k text v : options_from_str o (de_ty tenv f (TInt k)) text = RValue v ->
  exists t x z, spells o text t x /\ v = VInt k z /\ in_range k z = true /\ int_text k z t.
Proof.
  intros H. apply C51_literals in H as (t & x & SP & L); [|reflexivity]. inversion L; subst. eauto 12.
Qed.
Theorem C51_bytes tenv o f text v : options_from_str o (de_ty tenv f TBytes) text = RValue v ->
  exists t x b, spells o text t x /\ v = VBytes b /\
    (bytes_lit t b \/
     exists w u w' d, t = c_lb :: w ++ u ++ w' ++ [c_rb] /\ layout w /\ layout w' /\ sepd byte_text b u d).
Proof.
  intros H. apply C50_accepted_documents in H as (t & x & d & SP & AC & _). exists t, x.
  inversion AC; subst.
  - match goal with H : leaf _ _ _ |- _ => inversion H; subst end. eauto 12.
  - match goal with H : sepd byte_text ?l ?u ?d', H1 : layout ?w, H2 : layout ?w' |- context [c_lb :: ?w ++ ?u ++ ?w' ++ [c_rb]] =>
      exists l; split; [assumption|]; split; [reflexivity|]; right; exists w, u, w', d'; auto end.
Qed.

(** C44: the texts of an option *)
Definition option_text (x : exts) (inner : bool -> val -> str -> Prop) (b : bool) (v : val) (t : str) : Prop :=
  (v = VNone /\ t = s_None) \/
  exists v', v = VSome v' /\
    ((exists u w1 w2 w3, t = s_Some ++ w1 ++ c_lp :: w2 ++ u ++ w3 ++ [c_rp] /\ layout w1 /\ layout w2 /\ tail w3 /\
                         inner (x_unwrap_variant_newtypes x) v' u) \/
     (x_implicit_some x = true /\ bare_text t /\ inner b v' t) \/
     (* [Some] without parentheses *)
     (x_implicit_some x = true /\ exists u w, t = s_Some ++ w ++ u /\ layout w /\ inner b v' u)).
Lemma option_acc x tenv b T v t d : acc x tenv b (TOption T) v t d ->
  option_text x (fun b v t => exists d, acc x tenv b T v t d) b v t.
Proof.
  intros AC. unfold option_text. inversion AC; subst.
  - match goal with H : leaf _ _ _ |- _ => inversion H end.
  - left. auto.
  - right. eexists. split; [reflexivity|]. left. do 4 eexists. split; [reflexivity|]. eauto 8.
  - right. eexists. split; [reflexivity|]. right. left. eauto.
  - right. eexists. split; [reflexivity|]. right. right. split; [assumption|]. do 2 eexists. split; [reflexivity|]. eauto.
Qed.
Theorem C44_option_partial tenv o f T text v : options_from_str o (de_ty tenv f (TOption T)) text = RValue v ->
  exists t x, spells o text t x /\ option_text x (fun b v t => exists d, acc x tenv b T v t d) false v t.
Proof.
  intros H. apply C50_accepted_documents in H as (t & x & d & SP & AC & _). exists t, x. split; [assumption|].
  eapply option_acc; eassumption.
Qed.
(** the same wherever an option is read *)
Theorem C44_option_inside_partial tenv f T text s v s' : inv text s -> ready s -> de_ty tenv f (TOption T) s = Ok v s' ->
  exists t w, rest s = t ++ w ++ rest s' /\ (layout w \/ (rest s' = [] /\ final_layout w)) /\
    option_text (ext s) (fun b v t => exists d, acc (ext s) tenv b T v t d) (nt s) v t.
Proof.
  intros I R H. destruct (proj2 (de_ty_ok (ext s) tenv f (nt s) (TOption T)) text s v s' I R eq_refl eq_refl H) as (_ & t & w & d & Q & L & AC & _).
  exists t, w. split; [assumption|]. split; [assumption|]. eapply option_acc; eassumption.
Qed.
(** without implicit_some the property holds as stated *)
Theorem C44_option_explicit tenv o f T text v : options_from_str o (de_ty tenv f (TOption T)) text = RValue v ->
  exists t x, spells o text t x /\
    (x_implicit_some x = false ->
     (v = VNone /\ t = s_None) \/
     exists v' u w1 w2 w3 b d, v = VSome v' /\ t = s_Some ++ w1 ++ c_lp :: w2 ++ u ++ w3 ++ [c_rp] /\
       layout w1 /\ layout w2 /\ tail w3 /\ acc x tenv b T v' u d).
Proof.
  intros H. apply C44_option_partial in H as (t & x & SP & O). exists t, x. split; [assumption|]. intros NI.
  destruct O as [O|(v' & -> & [(u & w1 & w2 & w3 & -> & L1 & L2 & T3 & d & AC)|[(IS & _)|(IS & _)]])]; [auto| |congruence..].
  right. exists v', u, w1, w2, w3, (x_unwrap_variant_newtypes x), d. auto 10.
Qed.

(** C45: struct names *)
Definition struct_name (T : ty) : option str :=
  match T with
  | TUnitStruct n | TNewtype n _ | TTupleStruct n _ | TStruct _ n _ => Some n
  | _ => None
  end.
Definition is_newtype (T : ty) : bool := match T with TNewtype _ _ => true | _ => false end.
Definition range_names : list str :=
  [s_Range; s_RangeInclusive; s_RangeFrom; s_RangeTo; s_RangeToInclusive; s_RangeFull].
(** the text begins with the expected name; or there is none, where the
    extensions allow this; or it is a range *)
Definition struct_head (x : exts) (T : ty) (name : str) (t : str) : Prop :=
  (exists tn r, t = tn ++ r /\ ident_lit tn name) \/
  (x_explicit_struct_names x = false /\ exists w r, t = w ++ c_lp :: r /\ layout w) \/
  (x_unwrap_newtypes x = true /\ is_newtype T = true) \/
  In name range_names.
Lemma name_acc_head x gap T name tn r : name_acc x gap name tn -> struct_head x T name (tn ++ c_lp :: r).
Proof.
  intros [w NE L _|tn' w I L _].
  - right. left. split; [assumption|]. exists w, r. auto.
  - left. exists tn', (w ++ c_lp :: r). rewrite <- app_assoc. auto.
Qed.
Lemma struct_acc x tenv T name v t d : acc x tenv false T v t d -> struct_name T = Some name -> struct_head x T name t.
Proof.
  intros AC SN. inversion AC; subst; cbn [struct_name] in SN; try discriminate SN; try (injection SN as <-);
    repeat match goal with H : head_text _ false _ _ _ |- _ => cbn [head_text] in H | H : paren false _ _ |- _ => inversion H; subst; clear H end;
    try (eapply name_acc_head; eassumption).
  - match goal with H : leaf _ _ _ |- _ => inversion H; subst; discriminate end.
  - right. left. split; [assumption|]. exists [], [c_rp]. split; [reflexivity|constructor].
  - left. exists t, []. rewrite app_nil_r. auto.
  - right. right. right. unfold range_names. cbn [In]. auto 10.
  - match goal with H : _ || false = true |- _ => rewrite orb_false_r in H end. right. right. left. auto.
  - right. right. right. unfold range_names. match goal with H : range_syntax _ _ _ _ |- _ => inversion H; subst end; cbn [In]; auto 10.
Qed.
Theorem C45_struct_names_partial tenv o f T name text v : struct_name T = Some name ->
  options_from_str o (de_ty tenv f T) text = RValue v ->
  exists t x, spells o text t x /\ struct_head x T name t.
Proof.
  intros SN H. apply C50_accepted_documents in H as (t & x & d & SP & AC & _). exists t, x. split; [assumption|].
  eapply struct_acc; eassumption.
Qed.
Theorem C45_struct_names_inside_partial tenv f T name text s v s' : struct_name T = Some name -> inv text s -> ready s -> nt s = false ->
  de_ty tenv f T s = Ok v s' -> exists t r, rest s = t ++ r /\ struct_head (ext s) T name t.
Proof.
  intros SN I RD N H. destruct (C50_accepted_inside _ _ _ _ _ _ _ I RD N H) as (t & w & d & Q & _ & AC & _).
  exists t, (w ++ rest s'). split; [assumption|]. eapply struct_acc; eassumption.
Qed.
(** with explicit_struct_names, without unwrap_newtypes, and apart from ranges:
    a struct is only read from a text that begins with its name *)
Theorem C45_explicit_partial tenv f T name text s v s' : struct_name T = Some name -> inv text s -> ready s -> nt s = false ->
  x_explicit_struct_names (ext s) = true -> x_unwrap_newtypes (ext s) = false -> ~ In name range_names ->
  de_ty tenv f T s = Ok v s' -> exists tn r, rest s = tn ++ r /\ ident_lit tn name.
Proof.
  intros SN I RD N XE XU NR H. destruct (C45_struct_names_inside_partial _ _ _ _ _ _ _ _ SN I RD N H) as (t & r & Q & [(tn & r' & -> & IL)|[(XE' & _)|[(XU' & _)|R]]]);
    try congruence.
  exists tn, (r' ++ r). rewrite Q, <- app_assoc. auto.
Qed.
End Proofs.

Print Assumptions C50_accepted_documents.
Print Assumptions C50_accepted_inside.
Print Assumptions C51_literals.
Print Assumptions C51_strings.
Print Assumptions C51_chars.
Print Assumptions C51_integers.
Print Assumptions C51_bytes.
Print Assumptions C44_option_partial.
Print Assumptions C44_option_inside_partial.
Print Assumptions C44_option_explicit.
Print Assumptions C45_struct_names_partial.
Print Assumptions C45_struct_names_inside_partial.
Print Assumptions C45_explicit_partial.

#[local] Existing Instance Toy.
#[local] Existing Instance toy_xid.
Definition no_types : nat -> ty := fun _ => TUnit.
Definition with_exts (x : exts) : opts := Opts x (Some 128%nat).

(** C44: [Some 5] is accepted, with implicit_some *)
Theorem C44_some_without_parentheses_refuted : exists text v,
  options_from_str (with_exts (Exts false true false false)) (de_ty no_types 9 (TOption (TInt U8))) text = RValue v /\
  text = lit "Some 5" /\ v = VSome (VInt U8 5) /\
  ~ (text = s_None \/ (exists r, text = s_Some ++ r /\ exists w u, r = w ++ c_lp :: u /\ layout w) \/ bare_text text).
Proof.
  exists (lit "Some 5"), (VSome (VInt U8 5)). split; [vm_compute; reflexivity|]. split; [reflexivity|]. split; [reflexivity|].
  intros [H|[(r & H & w & u & -> & L)|H]].
  - discriminate H.
  - assert (QI : In c_lp (lit "Some 5")).
    { rewrite H. apply in_or_app. right. apply in_or_app. right. now left. }
    vm_compute in QI. repeat (destruct QI as [QI|QI]; [discriminate|]). contradiction.
  - specialize (H s_Some 32 (lit "5") (or_intror eq_refl) eq_refl). discriminate H.
Qed.
(** C45: under a newtype variant with unwrap_variant_newtypes the name is left
    out in spite of explicit_struct_names; and so it is in a range *)
Theorem C45_explicit_refuted :
  options_from_str (with_exts (Exts false false true true))
    (de_ty no_types 9 (TEnum (lit "E") [(lit "V", WNew (TStruct false (lit "S") [(lit "a", TBool)]))])) (lit "V(a:true)") =
    RValue (VNewVariant (lit "E") (lit "V") (VStruct (lit "S") [(lit "a", VBool true)])) /\
  options_from_str (with_exts (Exts false false false true))
    (de_ty no_types 9 (TStruct true s_Range [(s_start, TInt U8); (s_end, TInt U8)])) (lit "1..2") =
    RValue (VStruct s_Range [(s_start, VInt U8 1); (s_end, VInt U8 2)]).
Proof. split; vm_compute; reflexivity. Qed.

Example C50_example : exists v, options_from_str (with_exts (Exts false true false false))
  (de_ty no_types 9 (TStruct false (lit "S") [(lit "a", TOption (TInt U8)); (lit "b", TOption TBool)]))
  (lit "#![enable(unwrap_newtypes)] /**/ S(c: [{1: 'x'}], b: true,) //") = RValue v /\
  v = VStruct (lit "S") [(lit "a", VNone); (lit "b", VSome (VBool true))].
Proof. eexists. split; vm_compute; reflexivity. Qed.
Example C44_example :
  options_from_str (with_exts exts_empty) (de_ty no_types 9 (TOption (TInt U8))) (lit "Some ( 5 , )") = RValue (VSome (VInt U8 5)) /\
  options_from_str (with_exts exts_empty) (de_ty no_types 9 (TOption (TInt U8))) (lit "None") = RValue VNone /\
  (exists sp, options_from_str (with_exts exts_empty) (de_ty no_types 9 (TOption (TInt U8))) (lit "5") = RError EExpectedOption sp) /\
  options_from_str (with_exts (Exts false true false false)) (de_ty no_types 9 (TOption (TInt U8))) (lit "5") = RValue (VSome (VInt U8 5)).
Proof. repeat split; try (eexists; vm_compute; reflexivity); vm_compute; reflexivity. Qed.
Example C45_example :
  options_from_str (with_exts exts_empty) (de_ty no_types 9 (TNewtype (lit "S") TBool)) (lit "r#S(true)") = RValue (VNewtype (lit "S") (VBool true)) /\
  (exists sp, options_from_str (with_exts exts_empty) (de_ty no_types 9 (TNewtype (lit "S") TBool)) (lit "T(true)") =
     RError (EExpectedDifferentStructName (lit "S") (lit "T")) sp) /\
  (exists sp, options_from_str (with_exts (Exts false false false true)) (de_ty no_types 9 (TNewtype (lit "S") TBool)) (lit "(true)") =
     RError (EExpectedStructName (lit "S")) sp).
Proof. repeat split; try (eexists; vm_compute; reflexivity); vm_compute; reflexivity. Qed.
Example C51_example :
  options_from_str (with_exts exts_empty) (de_ty no_types 9 TStr) (lit "/**/ r#""a""b""# ") = RValue (VStr (lit "a""b")) /\
  options_from_str (with_exts exts_empty) (de_ty no_types 9 (TInt I16)) (lit "-0x_f_i16") <> RValue (VInt I16 (-15)) /\
  options_from_str (with_exts exts_empty) (de_ty no_types 9 (TInt I16)) (lit "-0xf_i16") = RValue (VInt I16 (-15)) /\
  options_from_str (with_exts exts_empty) (de_ty no_types 9 TChar) (lit "'\u{e9}'") = RValue (VChar 233) /\
  options_from_str (with_exts exts_empty) (de_ty no_types 9 TBytes) (lit "b""\xff""") = RValue (VBytes [255]) /\
  options_from_str (with_exts exts_empty) (de_ty no_types 9 TBytes) (lit "[1, b'a']") = RValue (VBytes [1; 97]).
Proof. repeat split; try (vm_compute; reflexivity). vm_compute. discriminate. Qed.
