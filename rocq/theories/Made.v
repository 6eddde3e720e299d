(** Specification of converting a Value: what the result must be made of.
    Every element and every entry has its place in the result, except for the
    fields that a struct does not know. *)
From Coq Require Import NArith ZArith Bool List.
From Verif Require Import Base Value Data Parse De Accept.
Import ListNotations.
Open Scope N_scope.
Open Scope list_scope.

Section Made.
Context {E : Env}.
Variable tenv : nat -> ty.

(** a map key that stands for a field *)
Inductive key_names (fields : list (str * ty)) : value -> str -> ty -> Prop :=
  | kn_str s t : assoc s fields = Some t -> key_names fields (XStr s) s t
  | kn_char c t : assoc [c] fields = Some t -> key_names fields (XChar c) [c] t
  | kn_bytes f t : find (fun ft => str_eqb (enc f) (enc (fst ft))) fields = Some (f, t) -> key_names fields (XBytes (enc f)) f t
  | kn_index k z f t : In k [U8; U16; U32; U64] -> nth_error fields (Z.to_nat z) = Some (f, t) ->
      key_names fields (XNum (NInt k z)) f t.
(** or for none *)
Inductive key_unknown (fields : list (str * ty)) : value -> Prop :=
  | ku_str s : assoc s fields = None -> key_unknown fields (XStr s)
  | ku_char c : assoc [c] fields = None -> key_unknown fields (XChar c)
  | ku_bytes b : ~ In b (map (fun ft => enc (fst ft)) fields) -> key_unknown fields (XBytes b)
  | ku_index k z : In k [U8; U16; U32; U64] -> nth_error fields (Z.to_nat z) = None -> key_unknown fields (XNum (NInt k z)).
Inductive made_entry (R : ty -> value -> val -> Prop) (deny : bool) (fields : list (str * ty)) : value * value -> str * option val -> Prop :=
  | me_known k x f t v : key_names fields k f t -> R t x v -> made_entry R deny fields (k, x) (f, Some v)
  | me_unknown k x : key_unknown fields k -> deny = false -> made_entry R deny fields (k, x) ([], None).

Definition float_as (k k' : fk) (b : N) : N :=
  match k, k' with F32, F64 => f_narrow b | F64, F32 => f_widen b | _, _ => b end.

Inductive made : ty -> value -> val -> Prop :=
  | md_ref n x v : made (tenv n) x v -> made (TRef n) x v
  | md_bool b : made TBool (XBool b) (VBool b)
  | md_int k k' z : int_supported k = true -> in_range k z = true -> (is_128 k' = true -> is_128 k = true) ->
      made (TInt k) (XNum (NInt k' z)) (VInt k z)
  | md_float_int k k' z : is_128 k' = false -> made (TFloat k) (XNum (NInt k' z)) (VFloat k (f_of_int k z))
  | md_float k k' b : made (TFloat k) (XNum (NFloat k' b)) (VFloat k (float_as k k' b))
  | md_char c : made TChar (XChar c) (VChar c)
  | md_char_str c : made TChar (XStr [c]) (VChar c)
  | md_str s : made TStr (XStr s) (VStr s)
  | md_str_char c : made TStr (XChar c) (VStr [c])
  | md_str_bytes b s : from_utf8 b = Some s -> made TStr (XBytes b) (VStr s)
  | md_bytes b : made TBytes (XBytes b) (VBytes b)
  | md_bytes_str s : made TBytes (XStr s) (VBytes (enc s))
  | md_bytes_char c : made TBytes (XChar c) (VBytes (enc [c]))
  | md_bytes_seq l bs : Forall2 (fun x b => exists k, is_128 k = false /\ x = XNum (NInt k (Z.of_N b)) /\ b < 256) l bs ->
      made TBytes (XSeq l) (VBytes bs)
  | md_unit : made TUnit XUnit VUnit
  | md_unit_struct name : made (TUnitStruct name) XUnit (VUnitStruct name)
  | md_none t : made (TOption t) XNone VNone
  | md_none_unit t : made (TOption t) XUnit VNone
  | md_some t x v : made t x v -> made (TOption t) (XSome x) (VSome v)
  | md_newtype name t x v : made t x v -> made (TNewtype name t) (XSeq [x]) (VNewtype name v)
  | md_seq t l vs : Forall2 (made t) l vs -> made (TSeq t) (XSeq l) (VSeq vs)
  | md_tuple ts l vs : length ts = length l -> Forall2 (fun p v => made (fst p) (snd p) v) (combine ts l) vs ->
      made (TTuple ts) (XSeq l) (VTuple vs)
  | md_tuple_struct name ts l vs : length ts = length l -> Forall2 (fun p v => made (fst p) (snd p) v) (combine ts l) vs ->
      made (TTupleStruct name ts) (XSeq l) (VTupleStruct name vs)
  | md_struct_seq deny name fields l vs : length fields = length l ->
      Forall2 (fun p v => made (fst p) (snd p) v) (combine (map snd fields) l) vs ->
      made (TStruct deny name fields) (XSeq l) (VStruct name (combine (map fst fields) vs))
  | md_map kt vt es vs : Forall2 (fun kx kv => made kt (fst kx) (fst kv) /\ made vt (snd kx) (snd kv)) es vs ->
      made (TMap kt vt) (XMap es) (VMap vs)
  | md_struct deny name fields es ents fs : Forall2 (made_entry made deny fields) es ents ->
      struct_of (is_option tenv) fields ents fs ->
      made (TStruct deny name fields) (XMap es) (VStruct name fs)
  | md_any x : made TAny x (embed (norm x))
  | md_ignored x : made TIgnored x VIgnored
  | md_raw s : (exists x st, from_str opts_default any_value s = Ok x st) -> made TRaw (XStr s) (VRaw s)
  | md_raw_char c : (exists x st, from_str opts_default any_value [c] = Ok x st) -> made TRaw (XChar c) (VRaw [c]).
End Made.
