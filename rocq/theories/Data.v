(** Types and values of the serde data model that the typed model handles. *)
From Coq Require Import NArith ZArith Bool List.
From Verif Require Import Base Value.
Import ListNotations.
Open Scope N_scope.

(** What a Rust type asks of a Deserializer: the derived (or standard library)
    [Deserialize] implementation of each shape.  [TRef n] is a reference to a
    named type, looked up in a table; it makes recursive types expressible.

    - TStruct deny: #[serde(deny_unknown_fields)] as a flag; the ranges of
      core::ops are structs with [deny = true].
    - TAny is ron::Value, TIgnored serde::de::IgnoredAny, TRaw RawValue. *)
Inductive ty :=
  | TBool | TInt (k : ik) | TFloat (k : fk) | TChar | TStr | TBytes
  | TUnit | TUnitStruct (name : str)
  | TOption (t : ty)
  | TNewtype (name : str) (t : ty)
  | TSeq (t : ty)
  | TTuple (ts : list ty)
  | TTupleStruct (name : str) (ts : list ty)
  | TMap (k v : ty)
  | TStruct (deny : bool) (name : str) (fields : list (str * ty))
  | TEnum (name : str) (variants : list (str * vty))
  | TAny | TIgnored | TRaw
  | TRef (n : nat)
with vty :=
  | WUnit
  | WNew (t : ty)
  | WTup (ts : list ty)
  | WStruct (deny : bool) (fields : list (str * ty)).

(** Values, carrying the static names their [Serialize] implementation passes
    to the Serializer. *)
Inductive val :=
  | VBool (b : bool) | VInt (k : ik) (z : Z) | VFloat (k : fk) (bits : N)
  | VChar (c : char) | VStr (s : str) | VBytes (b : bytes)
  | VUnit | VUnitStruct (name : str)
  | VNone | VSome (v : val)
  | VNewtype (name : str) (v : val)
  | VSeq (vs : list val)
  | VTuple (vs : list val)
  | VTupleStruct (name : str) (vs : list val)
  | VMap (es : list (val * val))
  | VStruct (name : str) (fs : list (str * val))
  | VUnitVariant (ename vname : str)
  | VNewVariant (ename vname : str) (v : val)
  | VTupVariant (ename vname : str) (vs : list val)
  | VStructVariant (ename vname : str) (fs : list (str * val))
  | VRaw (s : str)
  | VIgnored.

(** A ron::Value serializes as the corresponding data model value
    (ser/value.rs:5-23). *)
Definition embed_num (n : num) : val :=
  match n with NInt k z => VInt k z | NFloat k b => VFloat k b end.
Fixpoint embed (x : value) : val :=
  match x with
  | XBool b => VBool b
  | XChar c => VChar c
  | XMap m => VMap (map (fun kv => (embed (fst kv), embed (snd kv))) m)
  | XNum n => embed_num n
  | XNone => VNone
  | XSome v => VSome (embed v)
  | XStr s => VStr s
  | XBytes b => VBytes b
  | XSeq l => VSeq (map embed l)
  | XUnit => VUnit
  end.
