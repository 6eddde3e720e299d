(** Which values belong to a type: the specification of well-typed results. *)
From Coq Require Import NArith ZArith Bool List.
From Verif Require Import Base Value Data.
Import ListNotations.
Open Scope N_scope.
Open Scope list_scope.

Section Typing.
(** the table of named types, and which bit patterns count as floats *)
Variable tenv : nat -> ty.
Variable fok : fk -> N -> Prop.

Definition byte_ok (b : byte) : Prop := b < 256.
Definition num_ok (n : num) : Prop :=
  match n with NInt k z => in_range k z = true | NFloat k b => fok k b end.

(** numbers in the range of their type, characters that are Unicode scalar
    values, bytes below 256 *)
Inductive any_ok : value -> Prop :=
  | any_bool b : any_ok (XBool b)
  | any_char c : is_scalar c = true -> any_ok (XChar c)
  | any_map m : Forall (fun kv => any_ok (fst kv) /\ any_ok (snd kv)) m -> any_ok (XMap m)
  | any_num n : num_ok n -> any_ok (XNum n)
  | any_none : any_ok XNone
  | any_some x : any_ok x -> any_ok (XSome x)
  | any_str s : wf_str s -> any_ok (XStr s)
  | any_bytes b : Forall byte_ok b -> any_ok (XBytes b)
  | any_seq l : Forall any_ok l -> any_ok (XSeq l)
  | any_unit : any_ok XUnit.

(** A struct's fields are the declared ones, in the declared order. *)
Inductive has_ty : ty -> val -> Prop :=
  | t_bool b : has_ty TBool (VBool b)
  | t_int k z : in_range k z = true -> has_ty (TInt k) (VInt k z)
  | t_float k b : fok k b -> has_ty (TFloat k) (VFloat k b)
  | t_char c : is_scalar c = true -> has_ty TChar (VChar c)
  | t_str s : wf_str s -> has_ty TStr (VStr s)
  | t_bytes b : Forall byte_ok b -> has_ty TBytes (VBytes b)
  | t_unit : has_ty TUnit VUnit
  | t_unit_struct name : has_ty (TUnitStruct name) (VUnitStruct name)
  | t_none t : has_ty (TOption t) VNone
  | t_some t v : has_ty t v -> has_ty (TOption t) (VSome v)
  | t_newtype name t v : has_ty t v -> has_ty (TNewtype name t) (VNewtype name v)
  | t_seq t l : Forall (has_ty t) l -> has_ty (TSeq t) (VSeq l)
  | t_tuple ts l : Forall2 has_ty ts l -> has_ty (TTuple ts) (VTuple l)
  | t_tuple_struct name ts l : Forall2 has_ty ts l ->
      has_ty (TTupleStruct name ts) (VTupleStruct name l)
  | t_map kt vt m : Forall (fun kv => has_ty kt (fst kv) /\ has_ty vt (snd kv)) m ->
      has_ty (TMap kt vt) (VMap m)
  | t_struct deny name fields fs : map fst fs = map fst fields ->
      Forall (fun fv => exists t, In (fst fv, t) fields /\ has_ty t (snd fv)) fs ->
      has_ty (TStruct deny name fields) (VStruct name fs)
  | t_unit_variant name variants k : In (k, WUnit) variants ->
      has_ty (TEnum name variants) (VUnitVariant name k)
  | t_new_variant name variants k t v : In (k, WNew t) variants -> has_ty t v ->
      has_ty (TEnum name variants) (VNewVariant name k v)
  | t_tup_variant name variants k ts l : In (k, WTup ts) variants -> Forall2 has_ty ts l ->
      has_ty (TEnum name variants) (VTupVariant name k l)
  | t_struct_variant name variants k deny fields fs : In (k, WStruct deny fields) variants ->
      map fst fs = map fst fields ->
      Forall (fun fv => exists t, In (fst fv, t) fields /\ has_ty t (snd fv)) fs ->
      has_ty (TEnum name variants) (VStructVariant name k fs)
  | t_any x : any_ok x -> has_ty TAny (embed (norm x))
  | t_ignored : has_ty TIgnored VIgnored
  | t_raw s : wf_str s -> has_ty TRaw (VRaw s)
  | t_ref n v : has_ty (tenv n) v -> has_ty (TRef n) v.
End Typing.
