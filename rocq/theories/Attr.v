(** Specification of the attributes at the start of a document
    (docs/grammar.md: extensions), independent of the parser. *)
From Coq Require Import NArith ZArith Bool List.
From Verif Require Import Base Facts Parse Layout Lit.
Import ListNotations.
Open Scope N_scope.
Open Scope list_scope.

(** the extension names and their meaning, as in the documentation *)
Inductive extension_name : str -> exts -> Prop :=
  | en_un : extension_name s_unwrap_newtypes (Exts true false false false)
  | en_is : extension_name s_implicit_some (Exts false true false false)
  | en_uvn : extension_name s_unwrap_variant_newtypes (Exts false false true false)
  | en_esn : extension_name s_explicit_struct_names (Exts false false false true).

Section WithEnv.
Context {E : Env}.

(** names separated by commas, with layout and an optional trailing comma; the
    meaning is the union *)
Inductive ext_list : str -> exts -> Prop :=
  | xl_last t n e w : ident_lit t n -> extension_name n e -> layout w -> ext_list (t ++ w) e
  | xl_comma t n e w w' : ident_lit t n -> extension_name n e -> layout w -> layout w' ->
      ext_list (t ++ w ++ c_comma :: w') e
  | xl_more t n e w w' l e' : ident_lit t n -> extension_name n e -> layout w -> layout w' ->
      ext_list l e' -> ext_list (t ++ w ++ c_comma :: w' ++ l) (exts_or e e').

(** a list of known names up to an unknown one, [b]; anything may follow *)
Inductive bad_ext_list : str -> str -> Prop :=
  | bx_here t n r : ident_lit t n -> (forall e, ~ extension_name n e) -> ident_end r -> bad_ext_list (t ++ r) n
  | bx_later t n e w w' l b : ident_lit t n -> extension_name n e -> layout w -> layout w' ->
      bad_ext_list l b -> bad_ext_list (t ++ w ++ c_comma :: w' ++ l) b.

(** one attribute with its brackets *)
Inductive attr_text : str -> exts -> Prop :=
  | at_enable w1 w2 w3 w4 w5 l e w6 :
      layout w1 -> layout w2 -> layout w3 -> layout w4 -> layout w5 -> layout w6 -> ext_list l e ->
      attr_text ([c_hash] ++ w1 ++ [33] ++ w2 ++ [c_lb] ++ w3 ++ s_enable ++ w4 ++ [c_lp] ++ w5 ++
                 l ++ [c_rp] ++ w6 ++ [c_rb]) e
  | at_other w1 w2 w3 k w4 w5 t s w6 :
      layout w1 -> layout w2 -> layout w3 -> layout w4 -> layout w5 -> layout w6 ->
      k = s_type \/ k = s_schema -> string_lit t s ->
      attr_text ([c_hash] ++ w1 ++ [33] ++ w2 ++ [c_lb] ++ w3 ++ k ++ w4 ++ [c_eq] ++ w5 ++
                 t ++ w6 ++ [c_rb]) exts_empty.

(** a document prefix: attributes, each followed by layout *)
Inductive attrs_text : str -> exts -> Prop :=
  | as_nil : attrs_text [] exts_empty
  | as_cons t e w a e' : attr_text t e -> layout w -> attrs_text a e' ->
      attrs_text (t ++ w ++ a) (exts_or e e').

End WithEnv.

(** where the value begins: neither layout nor an attribute *)
Definition value_start (r : str) : Prop :=
  solid r /\ match r with [] => True | c :: _ => c <> c_hash end.
