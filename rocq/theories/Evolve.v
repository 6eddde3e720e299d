(** What it means for a Rust type to be a later version of another, and for a
    value to be another one with fields filled in as None (C61).  Nothing here
    refers to the deserializer. *)
From Coq Require Import String Ascii NArith ZArith Bool List.
From Verif Require Import Base Value Data.
Import ListNotations.
Open Scope list_scope.

(** the names deserialize_struct (de/mod.rs:781-863) gives a meaning of its own *)
Definition range_names : list str := map lit ["Range"; "RangeInclusive"; "RangeFrom"; "RangeTo"; "RangeToInclusive"]%string.

Definition leaf (t : ty) : Prop :=
  match t with
  | TBool | TInt _ | TFloat _ | TChar | TStr | TBytes | TUnit | TUnitStruct _ | TAny | TIgnored | TRaw => True
  | _ => False
  end.

Section Versions.
(** the named types of the later version *)
Variable tenv' : nat -> ty.
Definition optional (t : ty) : Prop := exists u, t = TOption u \/ exists n, t = TRef n /\ tenv' n = TOption u.

(** [evolves T T']: T' is a later version of T.  Structs and struct variants
    may be given new fields, all of them optional, provided that the old
    version refused unknown fields; fields may be reordered;
    deny_unknown_fields may be dropped; enums may be given new variants and
    have theirs reordered. *)
Inductive evolves : ty -> ty -> Prop :=
  | ev_leaf t : leaf t -> evolves t t
  | ev_ref n : evolves (TRef n) (TRef n)
  | ev_option t t' : evolves t t' -> evolves (TOption t) (TOption t')
  | ev_newtype n t t' : evolves t t' -> evolves (TNewtype n t) (TNewtype n t')
  | ev_seq t t' : evolves t t' -> evolves (TSeq t) (TSeq t')
  | ev_tuple ts ts' : Forall2 evolves ts ts' -> evolves (TTuple ts) (TTuple ts')
  | ev_tuple_struct n ts ts' : Forall2 evolves ts ts' -> evolves (TTupleStruct n ts) (TTupleStruct n ts')
  | ev_map k k' v v' : evolves k k' -> evolves v v' -> evolves (TMap k v) (TMap k' v')
  | ev_range deny n fs : Forall leaf (map snd fs) -> NoDup (map fst fs) -> evolves (TStruct deny n fs) (TStruct deny n fs)
  | ev_struct deny deny' n fs fs' : ~ In n range_names -> efields deny deny' fs fs' ->
      evolves (TStruct deny n fs) (TStruct deny' n fs')
  | ev_enum n vs vs' :
      NoDup (map fst vs') -> (forall k w, In (k, w) vs -> exists w', In (k, w') vs' /\ vevolves w w') ->
      evolves (TEnum n vs) (TEnum n vs')
with vevolves : vty -> vty -> Prop :=
  | ev_unit : vevolves WUnit WUnit
  | ev_new t t' : evolves t t' -> vevolves (WNew t) (WNew t')
  | ev_tup ts ts' : Forall2 evolves ts ts' -> vevolves (WTup ts) (WTup ts')
  | ev_fields deny deny' fs fs' : efields deny deny' fs fs' -> vevolves (WStruct deny fs) (WStruct deny' fs')
with efields : bool -> bool -> list (str * ty) -> list (str * ty) -> Prop :=
  | ef_fields deny deny' fs fs' :
      NoDup (map fst fs) -> NoDup (map fst fs') ->
      (deny' = true -> deny = true) ->
      (forall k t, In (k, t) fs -> exists t', In (k, t') fs' /\ evolves t t') ->
      (forall k t', In (k, t') fs' -> ~ In k (map fst fs) -> deny = true /\ optional t') ->
      efields deny deny' fs fs'.
End Versions.

(** [grown v v']: v' is v, except that structs may have more fields, which
    are None *)
Inductive grown : val -> val -> Prop :=
  | g_same v : grown v v
  | g_some v v' : grown v v' -> grown (VSome v) (VSome v')
  | g_newtype n v v' : grown v v' -> grown (VNewtype n v) (VNewtype n v')
  | g_seq l l' : Forall2 grown l l' -> grown (VSeq l) (VSeq l')
  | g_tuple l l' : Forall2 grown l l' -> grown (VTuple l) (VTuple l')
  | g_tuple_struct n l l' : Forall2 grown l l' -> grown (VTupleStruct n l) (VTupleStruct n l')
  | g_map l l' : Forall2 gentry l l' -> grown (VMap l) (VMap l')
  | g_struct n l l' : gfields l l' -> grown (VStruct n l) (VStruct n l')
  | g_new e n v v' : grown v v' -> grown (VNewVariant e n v) (VNewVariant e n v')
  | g_tup e n l l' : Forall2 grown l l' -> grown (VTupVariant e n l) (VTupVariant e n l')
  | g_fields e n l l' : gfields l l' -> grown (VStructVariant e n l) (VStructVariant e n l')
with gentry : val * val -> val * val -> Prop :=
  | ge k k' v v' : grown k k' -> grown v v' -> gentry (k, v) (k', v')
with gfields : list (str * val) -> list (str * val) -> Prop :=
  | gf l l' :
      NoDup (map fst l) -> NoDup (map fst l') ->
      (forall k v, In (k, v) l -> exists v', In (k, v') l' /\ grown v v') ->
      (forall k v', In (k, v') l' -> ~ In k (map fst l) -> v' = VNone) ->
      gfields l l'.
