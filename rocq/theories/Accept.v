(** Specification of what may be accepted: the texts from which a value of a
    type may be read at all, and how deeply they nest.

    This is the converse of [Repr]: there, every text in the grammar must be
    read; here, nothing outside of the grammar may be.  The structure of the
    texts (brackets, names, keys, commas, layout, literals) is spelled out; only
    what a float numeral means is left to Rust's own parser ([f_read]). *)
From Coq Require Import NArith ZArith Bool List.
From Verif Require Import Base Facts Value Data Parse De Layout Lit Wp Repr.
Import ListNotations.
Open Scope N_scope.
Open Scope list_scope.

(** [sepd R l t d]: [t] holds the items [l] separated by commas, with an
    optional trailing comma; layout only inside.  [R a t d] says that [t]
    represents [a] with nesting [d], and [d] is the nesting of the items. *)
Inductive sepd {A} (R : A -> str -> nat -> Prop) : list A -> str -> nat -> Prop :=
  | se_nil : sepd R [] [] 0
  | se_one a t d : R a t d -> sepd R [a] t (S d)
  | se_comma a t w d : R a t d -> layout w -> sepd R [a] (t ++ w ++ [c_comma]) (S d)
  | se_cons a b l t w w' ts d d' : R a t d -> layout w -> layout w' -> sepd R (b :: l) ts d' ->
      sepd R (a :: b :: l) (t ++ w ++ c_comma :: w' ++ ts) (Nat.max (S d) d').

(** a body in parentheses, or ([bare]) without them *)
Inductive paren : bool -> str -> str -> Prop :=
  | pa_in w t w' : layout w -> layout w' -> paren false t (c_lp :: w ++ t ++ w' ++ [c_rp])
  | pa_bare w t : layout w -> paren true t (w ++ t).

(** [key: value] *)
Inductive pair_text {K V} (RK : K -> str -> nat -> Prop) (R : V -> str -> nat -> Prop) : K * V -> str -> nat -> Prop :=
  | pt k tk dk v tv dv w w' : RK k tk dk -> layout w -> layout w' -> R v tv dv ->
      pair_text RK R (k, v) (tk ++ w ++ c_colon :: w' ++ tv) (Nat.max dk dv).

(** an entry of a struct: a field with its value, or an unknown field, which
    is skipped, unless the struct denies unknown fields *)
Inductive field_text {E : Env} (R : ty -> val -> str -> nat -> Prop) (U : str -> nat -> Prop)
    (deny : bool) (fields : list (str * ty)) : str * option val -> str -> nat -> Prop :=
  | ft_known k T v tk w w' tv d : assoc k fields = Some T -> ident_lit tk k -> layout w -> layout w' ->
      R T v tv d -> field_text R U deny fields (k, Some v) (tk ++ w ++ c_colon :: w' ++ tv) d
  | ft_unknown k tk w w' tv d : assoc k fields = None -> deny = false -> ident_lit tk k -> layout w -> layout w' ->
      U tv d -> field_text R U deny fields (k, None) (tk ++ w ++ c_colon :: w' ++ tv) d.

(** the struct made of some entries: no field is given twice, and only an
    optional field may be left out *)
Definition given (ents : list (str * option val)) : list (str * val) :=
  flat_map (fun p => match snd p with Some v => [(fst p, v)] | None => [] end) ents.
Definition struct_of (opt : ty -> bool) (fields : list (str * ty)) (ents : list (str * option val))
    (fs : list (str * val)) : Prop :=
  NoDup (map fst (given ents)) /\ map fst fs = map fst fields /\
  Forall2 (fun ft fv => In fv (given ents) \/
                        (opt (snd ft) = true /\ snd fv = VNone /\ ~ In (fst fv) (map fst (given ents))))
          fields fs.

Section Accept.
Context {E : Env}.

(** the extensions in force, and the named types *)
Variable e : exts.
Variable tenv : nat -> ty.

(** the name in front of a parenthesis and the layout after it; without
    explicit_struct_names the name may be left out.  No layout may come between
    the name and the parenthesis of a tuple struct ([gap = false]). *)
Inductive name_acc (gap : bool) (name : str) : str -> Prop :=
  | na_none w : x_explicit_struct_names e = false -> layout w -> (gap = false -> w = []) -> name_acc gap name w
  | na_some t w : ident_lit t name -> layout w -> (gap = false -> w = []) -> name_acc gap name (t ++ w).
Definition head_text (bare gap : bool) (name : str) (tn : str) : Prop :=
  if bare then tn = [] else name_acc gap name tn.

(** ** Untyped *)
Inductive atom : value -> str -> Prop :=
  | at_bool (b : bool) : atom (XBool b) (if b then s_true else s_false)
  | at_none : atom XNone s_None
  | at_unit : atom XUnit s_unit
  | at_name t n : ident_lit t n -> atom XUnit t
  | at_bytes b t : bytes_lit t b -> atom (XBytes b) t
  | at_number n t : num_lit n t -> atom (XNum n) t
  | at_range a b o ta tb : o = s_dotdot \/ o = s_dotdoteq -> num_lit a ta -> num_lit b tb ->
      atom (XMap [(XStr s_start, XNum a); (XStr s_end, XNum b)]) (ta ++ o ++ tb)
  | at_range_from a ta : num_lit a ta -> atom (XMap [(XStr s_start, XNum a)]) (ta ++ s_dotdot)
  | at_range_to b o tb : o = s_dotdot \/ o = s_dotdoteq -> num_lit b tb ->
      atom (XMap [(XStr s_end, XNum b)]) (o ++ tb)
  | at_range_full : atom XUnit s_dotdot
  | at_str s t : string_lit t s -> atom (XStr s) t
  | at_char c t : char_lit t c -> atom (XChar c) t.

Definition key_text (x : value) (t : str) (d : nat) : Prop := exists k, x = XStr k /\ ident_lit t k /\ d = 0%nat.
Definition any_name (t : str) : Prop := t = [] \/ exists ti n w, ident_lit ti n /\ layout w /\ t = ti ++ w.

(** [vacc b x t d]: [x] may be read from [t] with nesting [d]; [b]: [t] is the
    argument of a newtype variant whose parentheses stand for those of [x] *)
Inductive vacc : bool -> value -> str -> nat -> Prop :=
  | va_atom b x t : atom x t -> vacc b x t 0
  | va_unit : vacc true XUnit [] 0
  | va_some b x t w w' w'' d : layout w -> layout w' -> vacc (x_unwrap_variant_newtypes e) x t d -> tail w'' ->
      vacc b (XSome x) (s_Some ++ w ++ c_lp :: w' ++ t ++ w'' ++ [c_rp]) (S d)
  | va_implicit b x t w d : x_implicit_some e = true -> layout w -> vacc false x t d ->
      vacc b (XSome x) (s_Some ++ w ++ t) (S d)
  | va_seq b l t w w' d : layout w -> layout w' -> sepd (vacc false) l t d ->
      vacc b (XSeq l) (c_lb :: w ++ t ++ w' ++ [c_rb]) (S d)
  | va_map b es t w w' d : layout w -> layout w' -> sepd (pair_text (vacc false) (vacc false)) es t d ->
      vacc b (XMap es) (c_lc :: w ++ t ++ w' ++ [c_rc]) (S d)
  | va_tuple b l tn t t' d : any_name tn -> sepd (vacc false) l t d -> paren false t t' ->
      vacc b (XSeq l) (tn ++ t') (S d)
  | va_tuple_bare l t t' d : sepd (vacc false) l t d -> paren true t t' -> vacc true (XSeq l) t' (S d)
  | va_struct b es tn t t' d : any_name tn -> sepd (pair_text key_text (vacc false)) es t d -> paren false t t' ->
      vacc b (XMap es) (tn ++ t') (S d)
  | va_struct_bare es t t' d : sepd (pair_text key_text (vacc false)) es t d -> paren true t t' ->
      vacc true (XMap es) t' (S d).

(** ** Typed *)
Inductive leaf : ty -> val -> str -> Prop :=
  | lf_bool (b : bool) : leaf TBool (VBool b) (if b then s_true else s_false)
  | lf_int k z t : int_supported k = true -> in_range k z = true -> int_text k z t -> leaf (TInt k) (VInt k z) t
  | lf_float k b t : float_text (Some k) k b t -> leaf (TFloat k) (VFloat k b) t
  | lf_char c t : char_lit t c -> leaf TChar (VChar c) t
  | lf_str s t : string_lit t s -> leaf TStr (VStr s) t
  | lf_bytes b t : bytes_lit t b -> leaf TBytes (VBytes b) t.

(** the range syntax for the range types of the standard library *)
Inductive range_syntax : str -> list str -> list num -> str -> Prop :=
  | rs_range a b ta tb : num_lit a ta -> num_lit b tb ->
      range_syntax s_Range [s_start; s_end] [a; b] (ta ++ s_dotdot ++ tb)
  | rs_inclusive f a b ta tb : f = s_end \/ f = s_last -> num_lit a ta -> num_lit b tb ->
      range_syntax s_RangeInclusive [s_start; f] [a; b] (ta ++ s_dotdoteq ++ tb)
  | rs_from a ta : num_lit a ta -> range_syntax s_RangeFrom [s_start] [a] (ta ++ s_dotdot)
  | rs_to b tb : num_lit b tb -> range_syntax s_RangeTo [s_end] [b] (s_dotdot ++ tb)
  | rs_to_inclusive f b tb : f = s_end \/ f = s_last -> num_lit b tb ->
      range_syntax s_RangeToInclusive [f] [b] (s_dotdoteq ++ tb).

(** the bytes of a byte buffer given as a list of numbers *)
Definition byte_text (b : N) (t : str) (d : nat) : Prop :=
  d = 0%nat /\ int_text U8 (Z.of_N b) t /\ b < 256.

(** the text does not begin with the word [None] or [Some] *)
Definition bare_text (t : str) : Prop :=
  forall n c r, n = s_None \/ n = s_Some -> t = n ++ c :: r -> xid_continue c = true.

(** [acc b T v t d]: a [T] may be read from [t] as [v] with nesting [d] *)
Inductive acc : bool -> ty -> val -> str -> nat -> Prop :=
  | ac_leaf b T v t : leaf T v t -> acc b T v t 0
  | ac_bytes b l t w w' d : layout w -> layout w' -> sepd byte_text l t d ->
      acc b TBytes (VBytes l) (c_lb :: w ++ t ++ w' ++ [c_rb]) (S d)
  | ac_unit : acc false TUnit VUnit s_unit 0
  | ac_unit_bare : acc true TUnit VUnit [] 0
  | ac_unit_struct name : x_explicit_struct_names e = false -> acc false (TUnitStruct name) (VUnitStruct name) s_unit 0
  | ac_unit_struct_name name t : ident_lit t name -> acc false (TUnitStruct name) (VUnitStruct name) t 0
  | ac_unit_struct_bare name : acc true (TUnitStruct name) (VUnitStruct name) [] 0
  | ac_range_full b : acc b (TUnitStruct s_RangeFull) (VUnitStruct s_RangeFull) s_dotdot 0
  | ac_none b T : acc b (TOption T) VNone s_None 0
  | ac_some b T v t w w' w'' d : layout w -> layout w' -> acc (x_unwrap_variant_newtypes e) T v t d -> tail w'' ->
      acc b (TOption T) (VSome v) (s_Some ++ w ++ c_lp :: w' ++ t ++ w'' ++ [c_rp]) (S d)
  | ac_implicit b T v t d : x_implicit_some e = true -> bare_text t -> acc b T v t d ->
      acc b (TOption T) (VSome v) t (S d)
  | ac_some_bare b T v w t d : x_implicit_some e = true -> layout w -> acc b T v t d ->
      acc b (TOption T) (VSome v) (s_Some ++ w ++ t) (S d)
  | ac_newtype name T v tn t w w' d : x_unwrap_newtypes e = false -> name_acc true name tn -> layout w ->
      acc false T v t d -> tail w' ->
      acc false (TNewtype name T) (VNewtype name v) (tn ++ c_lp :: w ++ t ++ w' ++ [c_rp]) (S d)
  | ac_newtype_bare b name T v t d : x_unwrap_newtypes e || b = true -> acc false T v t d ->
      acc b (TNewtype name T) (VNewtype name v) t (S d)
  | ac_seq b T l t w w' d : layout w -> layout w' -> sepd (acc false T) l t d ->
      acc b (TSeq T) (VSeq l) (c_lb :: w ++ t ++ w' ++ [c_rb]) (S d)
  | ac_tuple b Ts l t t' d : length Ts = length l ->
      sepd (fun p => acc false (fst p) (snd p)) (combine Ts l) t d -> paren b t t' ->
      acc b (TTuple Ts) (VTuple l) t' (S d)
  | ac_tuple_struct b name Ts l tn t t' d : head_text b false name tn -> length Ts = length l ->
      sepd (fun p => acc false (fst p) (snd p)) (combine Ts l) t d -> paren b t t' ->
      acc b (TTupleStruct name Ts) (VTupleStruct name l) (tn ++ t') (S d)
  | ac_map b KT VT es t w w' d : layout w -> layout w' -> sepd (pair_text (acc false KT) (acc false VT)) es t d ->
      acc b (TMap KT VT) (VMap es) (c_lc :: w ++ t ++ w' ++ [c_rc]) (S d)
  | ac_struct b deny name fields ents fs tn t t' d : head_text b true name tn ->
      sepd (field_text (acc false) (fun t d => exists x, vacc false x t d) deny fields) ents t d ->
      struct_of (is_option tenv) fields ents fs -> paren b t t' ->
      acc b (TStruct deny name fields) (VStruct name fs) (tn ++ t') (S d)
  | ac_range b deny name fields ns fs t : range_syntax name (map fst fields) ns t ->
      range_fields (map (fun p => (fst p, resolve tenv (snd p))) fields) ns = Some fs ->
      acc b (TStruct deny name fields) (VStruct name fs) t 0
  | ac_unit_variant b name variants k w t : assoc k variants = Some WUnit -> layout w -> ident_lit t k ->
      acc b (TEnum name variants) (VUnitVariant name k) (w ++ t) 2
  | ac_new_variant b name variants k T v w0 tk w w' t w'' d : assoc k variants = Some (WNew T) -> layout w0 ->
      ident_lit tk k -> layout w -> layout w' -> acc (x_unwrap_variant_newtypes e) T v t d -> tail w'' ->
      acc b (TEnum name variants) (VNewVariant name k v)
        (w0 ++ tk ++ w ++ c_lp :: w' ++ t ++ w'' ++ [c_rp]) (S (S d))
  | ac_tup_variant b name variants k Ts l w0 tk w t t' d : assoc k variants = Some (WTup Ts) -> layout w0 ->
      ident_lit tk k -> layout w -> length Ts = length l ->
      sepd (fun p => acc false (fst p) (snd p)) (combine Ts l) t d -> paren false t t' ->
      acc b (TEnum name variants) (VTupVariant name k l) (w0 ++ tk ++ w ++ t') (S (S d))
  | ac_struct_variant b name variants k deny fields ents fs w0 tk w t t' d :
      assoc k variants = Some (WStruct deny fields) -> layout w0 -> ident_lit tk k -> layout w ->
      sepd (field_text (acc false) (fun t d => exists x, vacc false x t d) deny fields) ents t d ->
      struct_of (is_option tenv) fields ents fs -> paren false t t' ->
      acc b (TEnum name variants) (VStructVariant name k fs) (w0 ++ tk ++ w ++ t') (S (S d))
  | ac_any b x t d : vacc b x t d -> acc b TAny (embed (norm x)) t d
  | ac_ignored b x t d : vacc b x t d -> acc b TIgnored VIgnored t d
  (* [p] is the layout in front of the text that belongs to the value *)
  | ac_raw b x p w t w' d : layout p \/ (w ++ t ++ w' = [] /\ final_layout p) -> layout w \/ (t ++ w' = [] /\ final_layout w) -> final_layout w' -> vacc b x t d ->
      acc b TRaw (VRaw (p ++ w ++ t ++ w')) (w ++ t ++ w') d
  | ac_ref b n v t d : acc b (tenv n) v t d -> acc b (TRef n) v t d.
End Accept.
