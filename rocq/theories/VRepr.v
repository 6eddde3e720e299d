(** Specification of RON texts read without a type: which [value] a text
    denotes (docs/grammar.md).  Independent of the parser; only the token
    grammars of [Lit] and [Layout] are used. *)
From Coq Require Import NArith ZArith Bool List.
From Verif Require Import Base Facts Value Data Parse De Layout Lit Repr.
Import ListNotations.
Open Scope N_scope.
Open Scope list_scope.

(** words with a meaning of their own *)
Definition keywords : list str :=
  [s_true; s_false; s_Some; s_None; s_inf; s_inff32; s_inff64; s_NaN; s_NaNf32; s_NaNf64].

Section VRepr.
Context {E : Env}.

(** ** Values, where unwrap_variant_newtypes is off *)

(** the name of a struct or variant, with layout after it *)
Inductive any_name : str -> Prop :=
  | an_none : any_name []
  | an_some t n w : ident_lit t n -> ~ In t keywords -> layout w -> any_name (t ++ w).

(** a range denotes a map with the entries start and end; the number after [..]
    must not be a word *)
Inductive range_lit : value -> str -> Prop :=
  | rl_range a b ta tb : num_text a ta -> num_text b tb -> num_lead tb ->
      range_lit (XMap [(XStr s_start, XNum a); (XStr s_end, XNum b)]) (ta ++ s_dotdot ++ tb)
  | rl_inclusive a b ta tb : num_text a ta -> num_text b tb ->
      range_lit (XMap [(XStr s_start, XNum a); (XStr s_end, XNum b)]) (ta ++ s_dotdoteq ++ tb)
  | rl_from a ta : num_text a ta -> range_lit (XMap [(XStr s_start, XNum a)]) (ta ++ s_dotdot)
  | rl_to b tb : num_text b tb -> num_lead tb -> range_lit (XMap [(XStr s_end, XNum b)]) (s_dotdot ++ tb)
  | rl_to_inclusive b tb : num_text b tb -> range_lit (XMap [(XStr s_end, XNum b)]) (s_dotdoteq ++ tb)
  | rl_full : range_lit XUnit s_dotdot.

(** maps and structs list their entries in the order of the text *)
Inductive vrepr : value -> str -> Prop :=
  | v_bool b : vrepr (XBool b) (if b : bool then s_true else s_false)
  | v_num n t : num_text n t -> vrepr (XNum n) t
  | v_range x t : range_lit x t -> vrepr x t
  | v_char c t : char_lit t c -> vrepr (XChar c) t
  | v_str s t : string_lit t s -> vrepr (XStr s) t
  | v_bytes b t : bytes_lit t b -> vrepr (XBytes b) t
  | v_unit : vrepr XUnit s_unit
  | v_name t n : ident_lit t n -> ~ In t keywords -> vrepr XUnit t
  | v_none : vrepr XNone s_None
  | v_some x t w w' w'' : layout w -> layout w' -> vrepr x t -> tail w'' ->
      vrepr (XSome x) (s_Some ++ w ++ c_lp :: w' ++ t ++ w'' ++ [c_rp])
  | v_seq l t w : layout w -> items vrepr l t -> vrepr (XSeq l) (c_lb :: w ++ t ++ [c_rb])
  | v_map es t w : layout w -> items (entry vrepr vrepr) es t -> vrepr (XMap es) (c_lc :: w ++ t ++ [c_rc])
  | v_tuple tn l t w : any_name tn -> layout w -> items vrepr l t -> (tn = [] -> w ++ t <> []) ->
      vrepr (XSeq l) (tn ++ c_lp :: w ++ t ++ [c_rp])
  | v_struct tn fs t w : any_name tn -> layout w -> fs <> [] -> items (entry field_key_text vrepr) fs t ->
      vrepr (XMap (map (fun kv => (XStr (fst kv), snd kv)) fs)) (tn ++ c_lp :: w ++ t ++ [c_rp]).
End VRepr.

(** ** Nesting *)
Fixpoint vneed (x : value) : nat :=
  match x with
  | XSome x => S (vneed x)
  | XSeq l => 2 + max_list (map vneed l)
  | XMap es => 2 + max_list (map (fun kv => Nat.max (vneed (fst kv)) (vneed (snd kv))) es)
  | _ => 0
  end%nat.
