(** Specification of RON texts for typed values: which texts represent a value,
    with every freedom of layout (docs/grammar.md, docs/extensions.md).
    Independent of the parser and the serializer; only the token grammars of
    [Lit] and [Layout] are used. *)
From Coq Require Import NArith ZArith Bool List Permutation.
From Verif Require Import Base Facts Value Data Parse De Layout Lit.
Import ListNotations.
Open Scope N_scope.
Open Scope list_scope.

(** ** Lists of things, separated by commas *)

(** [items R l t]: [t] represents the items [l], with an optional trailing
    comma and layout around the commas, but no layout in front *)
Inductive items {A} (R : A -> str -> Prop) : list A -> str -> Prop :=
  | it_nil : items R [] []
  | it_last a t w : R a t -> layout w -> items R [a] (t ++ w)
  | it_cons a t w w' l ts : R a t -> layout w -> layout w' -> items R l ts ->
      items R (a :: l) (t ++ w ++ c_comma :: w' ++ ts).

(** what may come after the argument of a newtype: layout and one comma *)
Inductive tail : str -> Prop :=
  | tl_none w : layout w -> tail w
  | tl_comma w w' : layout w -> layout w' -> tail (w ++ c_comma :: w').

(** ** Numbers without a type *)
Section Num.
Context {E : Env}.

(** the kinds of integers by size *)
Definition int_kinds (neg : bool) : list ik :=
  filter int_supported (if neg then [I8; I16; I32; I64; I128] else [U8; U16; U32; U64; U128]).
Definition least_kind (neg : bool) (z : Z) : option ik := find (fun k => in_range k z) (int_kinds neg).
(** an f32 if nothing is lost *)
Definition least_float (b : N) : num :=
  if b =? f_widen (f_narrow b) then NFloat F32 (f_narrow b) else NFloat F64 b.
(** the text of a float that cannot be an integer *)
Inductive pointed : str -> Prop :=
  | pt_fraction sg neg ds fs ex : sign sg neg -> ds <> [] -> forallb is_digit ds = true ->
      fs <> [] -> forallb is_digit fs = true -> exponent ex -> pointed (sg ++ ds ++ c_dot :: fs ++ ex).

Inductive num_text : num -> str -> Prop :=
  | n_int sg neg p base ds z k : sign sg neg -> base_prefix p base -> int_number base ds z ->
      least_kind neg (signed_value neg z) = Some k ->
      num_text (NInt k (signed_value neg z)) (sg ++ p ++ ds)
  | n_int_suffix k t z : int_supported k = true -> int_lit t z -> in_range k z = true ->
      num_text (NInt k z) (t ++ ik_suffix k)
  | n_float t b : pointed t -> f_read F64 t = Some b -> num_text (least_float b) t
  | n_float_suffix k t b : pointed t -> f_read k t = Some b -> num_text (NFloat k b) (t ++ fk_suffix k)
  | n_inf : num_text (NFloat F32 (f_inf F32)) s_inf
  | n_nan : num_text (NFloat F32 (f_nan F32)) s_NaN
  | n_minf : num_text (least_float (f_inf F64 + f_signbit F64)) s_minf
  | n_mnan : num_text (least_float (f_nan F64 + f_signbit F64)) s_mNaN
  | n_special_suffix k t f : special_float t f -> num_text (NFloat k (f k)) (t ++ fk_suffix k).

(** a number at a type: an integer or a float that it converts to, without
    narrowing from 128 bits *)
Inductive bound : val -> str -> Prop :=
  | b_int k k' z t : num_text (NInt k' z) t -> (is_128 k' = true -> is_128 k = true) -> bound (VInt k z) t
  | b_float_int k k' z t : num_text (NInt k' z) t -> is_128 k' = false -> bound (VFloat k (f_of_int k z)) t
  | b_float k b t : num_text (NFloat k b) t -> bound (VFloat k b) t
  | b_widen b t : num_text (NFloat F32 b) t -> bound (VFloat F64 (f_widen b)) t
  | b_narrow b t : num_text (NFloat F64 b) t -> bound (VFloat F32 (f_narrow b)) t.

(** the text begins with a digit or a sign *)
Definition num_lead (t : str) : Prop :=
  match t with [] => False | c :: _ => is_digit c = true \/ c = c_plus \/ c = c_minus end.

(** the range syntax; a range with two ends does not begin with a word *)
Inductive range_text : val -> str -> Prop :=
  | rt_range a b ta tb : bound a ta -> bound b tb -> num_lead ta ->
      range_text (VStruct s_Range [(s_start, a); (s_end, b)]) (ta ++ s_dotdot ++ tb)
  | rt_inclusive a b ta tb : bound a ta -> bound b tb -> num_lead ta ->
      range_text (VStruct s_RangeInclusive [(s_start, a); (s_end, b)]) (ta ++ s_dotdoteq ++ tb)
  | rt_from a ta : bound a ta -> range_text (VStruct s_RangeFrom [(s_start, a)]) (ta ++ s_dotdot)
  | rt_to b tb : bound b tb -> range_text (VStruct s_RangeTo [(s_end, b)]) (s_dotdot ++ tb)
  | rt_to_inclusive b tb : bound b tb -> range_text (VStruct s_RangeToInclusive [(s_end, b)]) (s_dotdoteq ++ tb)
  | rt_full : range_text (VUnitStruct s_RangeFull) s_dotdot.
End Num.

Section Repr.
Context {E : Env}.
(** the extensions in force *)
Variable e : exts.

(** [key: value], the key being a value or an identifier *)
Inductive entry {K V} (RK : K -> str -> Prop) (R : V -> str -> Prop) : K * V -> str -> Prop :=
  | en k tk v tv w w' : RK k tk -> layout w -> layout w' -> R v tv ->
      entry RK R (k, v) (tk ++ w ++ c_colon :: w' ++ tv).
Definition field_key_text (k t : str) : Prop := ident_lit t k.

(** The tokens for which there is a choice of spelling; [sf] restricts texts to
    those with the spellings it allows.  It is [fun _ => True] when any text
    will do. *)
Inductive token :=
  | KInt (suffix : bool) (z : Z) (t : str)  (* an integer and its text without suffix *)
  | KFloat (suffix : bool) (k : fk) (b : N) (t : str)  (* a float and its text *)
  | KName (t : str)                         (* the name of a struct or variant *)
  | KRange.                                 (* a range in range syntax *)
Variable sf : token -> Prop.

(** the name in front of a struct's parenthesis; without explicit_struct_names
    it may be left out.  No layout may come between the name and the
    parenthesis of a tuple struct ([gap = false]). *)
Inductive name_text (gap : bool) (name : str) : str -> Prop :=
  | nm_none : x_explicit_struct_names e = false -> name_text gap name []
  | nm_some t w : sf (KName t) -> ident_lit t name -> layout w -> (gap = false -> w = []) ->
      name_text gap name (t ++ w).

(** a text that is not taken for an explicit option *)
Definition no_option (t : str) : Prop :=
  forall n r, In n [s_None; s_Some] -> t = n ++ r -> ~ starts_not xid_continue r.

(** values that lose their own brackets as the only field of a variant under
    unwrap_variant_newtypes *)
Definition unwraps (v : val) : bool :=
  match v with
  | VUnit | VUnitStruct _ | VNewtype _ _ | VTuple _ | VTupleStruct _ _ | VStruct _ _ => true
  | VSome _ => x_implicit_some e
  | _ => false
  end.

(** the argument of a newtype variant or of [Some]: everything after the
    parenthesis and the layout there, up to the closing parenthesis *)
Inductive arg (R : val -> str -> Prop) : val -> str -> Prop :=
  | a_plain v t w : x_unwrap_variant_newtypes e = false \/ unwraps v = false ->
      R v t -> tail w -> arg R v (t ++ w)
  | a_unit w : x_unwrap_variant_newtypes e = true -> tail w -> solid w -> arg R VUnit w
  | a_unit_struct name w : x_unwrap_variant_newtypes e = true -> tail w -> solid w ->
      arg R (VUnitStruct name) w
  | a_range v t w : x_unwrap_variant_newtypes e = true -> sf KRange -> range_text v t -> tail w -> arg R v (t ++ w)
  | a_newtype name v t w : x_unwrap_variant_newtypes e = true -> R v t -> tail w ->
      arg R (VNewtype name v) (t ++ w)
  | a_tuple l t : x_unwrap_variant_newtypes e = true -> items R l t -> arg R (VTuple l) t
  | a_tuple_struct name l t : x_unwrap_variant_newtypes e = true -> items R l t ->
      arg R (VTupleStruct name l) t
  | a_struct name fs fs' t : x_unwrap_variant_newtypes e = true -> Permutation fs fs' ->
      items (entry field_key_text R) fs' t -> arg R (VStruct name fs) t
  | a_some v t w w' w'' : x_unwrap_variant_newtypes e = true -> x_implicit_some e = true ->
      layout w -> layout w' -> arg R v t -> tail w'' ->
      arg R (VSome v) (s_Some ++ w ++ c_lp :: w' ++ t ++ c_rp :: w'')
  | a_implicit v t : x_unwrap_variant_newtypes e = true -> x_implicit_some e = true ->
      no_option t -> arg R v t -> arg R (VSome v) t.

(** an integer or a float may carry the suffix of its type *)
Inductive repr : val -> str -> Prop :=
  | r_bool b : repr (VBool b) (if b then s_true else s_false)
  | r_int k z t : sf (KInt false z t) -> int_supported k = true -> int_lit t z -> repr (VInt k z) t
  | r_int_suffix k z t : sf (KInt true z t) -> int_supported k = true -> int_lit t z -> repr (VInt k z) (t ++ ik_suffix k)
  | r_float k b sfx t : sf (KFloat sfx k b t) -> float_lit k sfx t b -> repr (VFloat k b) t
  | r_char c t : char_lit t c -> repr (VChar c) t
  | r_str s t : string_lit t s -> repr (VStr s) t
  | r_bytes b t : bytes_lit t b -> repr (VBytes b) t
  | r_unit : repr VUnit s_unit
  | r_unit_struct name : x_explicit_struct_names e = false -> repr (VUnitStruct name) s_unit
  | r_unit_struct_name name t : sf (KName t) -> ident_lit t name -> repr (VUnitStruct name) t
  | r_range v t : sf KRange -> range_text v t -> repr v t
  | r_none : repr VNone s_None
  | r_some v t w w' : layout w -> layout w' -> arg repr v t ->
      repr (VSome v) (s_Some ++ w ++ c_lp :: w' ++ t ++ [c_rp])
  | r_implicit v t : x_implicit_some e = true -> no_option t -> repr v t -> repr (VSome v) t
  | r_newtype name v tn t w w' : x_unwrap_newtypes e = false -> name_text true name tn ->
      layout w -> repr v t -> tail w' ->
      repr (VNewtype name v) (tn ++ c_lp :: w ++ t ++ w' ++ [c_rp])
  | r_newtype_unwrapped name v t : x_unwrap_newtypes e = true -> repr v t -> repr (VNewtype name v) t
  | r_seq l t w : layout w -> items repr l t -> repr (VSeq l) (c_lb :: w ++ t ++ [c_rb])
  | r_tuple l t w : layout w -> items repr l t -> repr (VTuple l) (c_lp :: w ++ t ++ [c_rp])
  | r_tuple_struct name l tn t w : name_text false name tn -> layout w -> items repr l t ->
      repr (VTupleStruct name l) (tn ++ c_lp :: w ++ t ++ [c_rp])
  | r_map es t w : layout w -> items (entry repr repr) es t -> repr (VMap es) (c_lc :: w ++ t ++ [c_rc])
  | r_struct name fs fs' tn t w : name_text true name tn -> layout w -> Permutation fs fs' ->
      items (entry field_key_text repr) fs' t ->
      repr (VStruct name fs) (tn ++ c_lp :: w ++ t ++ [c_rp])
  | r_unit_variant ename k t : sf (KName t) -> ident_lit t k -> repr (VUnitVariant ename k) t
  | r_new_variant ename k v tk t w w' : sf (KName tk) -> ident_lit tk k -> layout w -> layout w' -> arg repr v t ->
      repr (VNewVariant ename k v) (tk ++ w ++ c_lp :: w' ++ t ++ [c_rp])
  | r_tup_variant ename k l tk t w w' : sf (KName tk) -> ident_lit tk k -> layout w -> layout w' -> items repr l t ->
      repr (VTupVariant ename k l) (tk ++ w ++ c_lp :: w' ++ t ++ [c_rp])
  | r_struct_variant ename k fs fs' tk t w w' : sf (KName tk) -> ident_lit tk k -> layout w -> layout w' ->
      Permutation fs fs' -> items (entry field_key_text repr) fs' t ->
      repr (VStructVariant ename k fs) (tk ++ w ++ c_lp :: w' ++ t ++ [c_rp]).
End Repr.

(** ** Values of a type, for which a text determines the value

    As [Typing.has_ty], without Value, IgnoredAny and RawValue, and with
    distinct names of fields and variants (Rust does not allow others).  A name
    does not stand for another name. *)
Section Typed.
Variable tenv : nat -> ty.
Variable fok : fk -> N -> Prop.

Inductive typed : ty -> val -> Prop :=
  | ty_bool b : typed TBool (VBool b)
  | ty_int k z : in_range k z = true -> typed (TInt k) (VInt k z)
  | ty_float k b : fok k b -> typed (TFloat k) (VFloat k b)
  | ty_char c : is_scalar c = true -> typed TChar (VChar c)
  | ty_str s : wf_str s -> typed TStr (VStr s)
  | ty_bytes b : Forall (fun b => b < 256) b -> typed TBytes (VBytes b)
  | ty_unit : typed TUnit VUnit
  | ty_unit_struct name : typed (TUnitStruct name) (VUnitStruct name)
  | ty_none t : typed (TOption t) VNone
  | ty_some t v : typed t v -> typed (TOption t) (VSome v)
  | ty_newtype name t v : typed t v -> typed (TNewtype name t) (VNewtype name v)
  | ty_seq t l : Forall (typed t) l -> typed (TSeq t) (VSeq l)
  | ty_tuple ts l : Forall2 typed ts l -> typed (TTuple ts) (VTuple l)
  | ty_tuple_struct name ts l : Forall2 typed ts l -> typed (TTupleStruct name ts) (VTupleStruct name l)
  | ty_map kt vt m : Forall (fun kv => typed kt (fst kv) /\ typed vt (snd kv)) m ->
      typed (TMap kt vt) (VMap m)
  | ty_struct deny name fields fs : NoDup (map fst fields) -> map fst fs = map fst fields ->
      Forall (fun fv => exists t, In (fst fv, t) fields /\ typed t (snd fv)) fs ->
      typed (TStruct deny name fields) (VStruct name fs)
  | ty_unit_variant name variants k : NoDup (map fst variants) -> In (k, WUnit) variants ->
      typed (TEnum name variants) (VUnitVariant name k)
  | ty_new_variant name variants k t v : NoDup (map fst variants) -> In (k, WNew t) variants ->
      typed t v -> typed (TEnum name variants) (VNewVariant name k v)
  | ty_tup_variant name variants k ts l : NoDup (map fst variants) -> In (k, WTup ts) variants ->
      Forall2 typed ts l -> typed (TEnum name variants) (VTupVariant name k l)
  | ty_struct_variant name variants k deny fields fs : NoDup (map fst variants) ->
      In (k, WStruct deny fields) variants -> NoDup (map fst fields) -> map fst fs = map fst fields ->
      Forall (fun fv => exists t, In (fst fv, t) fields /\ typed t (snd fv)) fs ->
      typed (TEnum name variants) (VStructVariant name k fs)
  | ty_ref n v : (forall m, tenv n <> TRef m) -> typed (tenv n) v -> typed (TRef n) v.
End Typed.

(** ** Nesting: how many nested calls of the deserializer a value needs *)
Fixpoint max_list (l : list nat) : nat := match l with [] => 0 | n :: l' => Nat.max n (max_list l') end%nat.
Fixpoint need (v : val) : nat :=
  match v with
  | VSome v => S (need v)
  | VNewtype _ v => S (need v)
  | VSeq l | VTuple l | VTupleStruct _ l => 2 + max_list (map need l)
  | VMap es => 2 + max_list (map (fun kv => Nat.max (need (fst kv)) (need (snd kv))) es)
  | VStruct _ fs => 2 + max_list (map (fun kv => need (snd kv)) fs)
  | VUnitVariant _ _ => 2
  | VNewVariant _ _ v => 2 + need v
  | VTupVariant _ _ l => 3 + max_list (map need l)
  | VStructVariant _ _ fs => 3 + max_list (map (fun kv => need (snd kv)) fs)
  | _ => 0
  end%nat.

(** ** Values that can be written *)
Section Plain.
(** the floats that are not NaNs with a payload *)
Variable fok : fk -> N -> Prop.
Definition all {A} (P : A -> Prop) (l : list A) : Prop := fold_right (fun a p => P a /\ p) True l.
(** strings of scalar values, bytes below 256, no raw values *)
Fixpoint plain (v : val) : Prop :=
  match v with
  | VFloat k b => fok k b
  | VStr s => wf_str s
  | VBytes b => Forall (fun b => b < 256) b
  | VSome v | VNewtype _ v | VNewVariant _ _ v => plain v
  | VSeq l | VTuple l | VTupleStruct _ l | VTupVariant _ _ l => all plain l
  | VMap es => all (fun kv => plain (fst kv) /\ plain (snd kv)) es
  | VStruct _ fs | VStructVariant _ _ fs => all (fun kv => plain (snd kv)) fs
  | VRaw _ | VIgnored => False
  | _ => True
  end.
End Plain.

(** With both implicit_some and unwrap_variant_newtypes, [A(Some((None, 5)))]
    is written [A(None, 5)]: the tuple loses its parentheses, and its first
    element is taken for the option.  [clash] finds these values. *)
Section Clash.
Variable e : exts.
(** the text begins with an option, with implicit_some *)
Fixpoint opt_text (v : val) : bool :=
  match v with
  | VNone => true
  | VSome v => opt_text v
  | VNewtype _ v => x_unwrap_newtypes e && opt_text v
  | _ => false
  end.
Fixpoint hides (v : val) : bool :=
  match v with
  | VSome v => hides v
  | VTuple (v :: _) | VTupleStruct _ (v :: _) => opt_text v
  | _ => false
  end.
Definition hides_arg (v : val) : bool := match v with VSome v => hides v | _ => false end.
Definition any {A} (p : A -> bool) (l : list A) : bool := fold_right (fun a b => p a || b) false l.
Fixpoint clash (v : val) : bool :=
  match v with
  | VNewVariant _ _ v =>
      (x_implicit_some e && x_unwrap_variant_newtypes e && hides_arg v) || clash v
  | VSome v | VNewtype _ v => clash v
  | VSeq l | VTuple l | VTupleStruct _ l | VTupVariant _ _ l => any clash l
  | VMap es => any (fun kv => clash (fst kv) || clash (snd kv)) es
  | VStruct _ fs | VStructVariant _ _ fs => any (fun kv => clash (snd kv)) fs
  | _ => false
  end.
End Clash.
