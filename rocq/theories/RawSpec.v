(** Values with raw values in them: their types, and what they are read back as. *)
From Coq Require Import NArith ZArith List.
From Verif Require Import Base Value Data Parse De Span Raw Layout Lit Repr.
From Verif Require SerRepr.
Import ListNotations.
Open Scope N_scope.
Open Scope list_scope.

(** neither begins nor ends with layout *)
Definition trimmed (t : str) : Prop := forall w u, layout w -> t = w ++ u \/ t = u ++ w -> w = [].
(** [r] is [t] with layout around it *)
Definition around (t r : str) : Prop := exists p p', layout p /\ layout p' /\ r = p ++ t ++ p'.

Section WithEnv.
Context {E : Env}.
(** [a] and [b] hold the same value in the same spelling *)
Definition same_raw (a b : str) : Prop := exists t x, around t a /\ around t b /\ trimmed t /\
  raw_into_rust any_value a = RValue x /\ raw_into_rust any_value b = RValue x /\ raw_into_rust any_value t = RValue x.
(** equal but for the layout around raw values *)
Inductive alike : val -> val -> Prop :=
  | al_flat v : SerRepr.flat v -> alike v v
  | al_raw a b : same_raw a b -> alike (VRaw a) (VRaw b)
  | al_some v v' : alike v v' -> alike (VSome v) (VSome v')
  | al_newtype n v v' : alike v v' -> alike (VNewtype n v) (VNewtype n v')
  | al_seq l l' : Forall2 alike l l' -> alike (VSeq l) (VSeq l')
  | al_tuple l l' : Forall2 alike l l' -> alike (VTuple l) (VTuple l')
  | al_tuple_struct n l l' : Forall2 alike l l' -> alike (VTupleStruct n l) (VTupleStruct n l')
  | al_map l l' : Forall2 (fun a b => alike (fst a) (fst b) /\ alike (snd a) (snd b)) l l' -> alike (VMap l) (VMap l')
  | al_struct n l l' : Forall2 (fun a b => fst a = fst b /\ alike (snd a) (snd b)) l l' -> alike (VStruct n l) (VStruct n l')
  | al_new_variant n k v v' : alike v v' -> alike (VNewVariant n k v) (VNewVariant n k v')
  | al_tup_variant n k l l' : Forall2 alike l l' -> alike (VTupVariant n k l) (VTupVariant n k l')
  | al_struct_variant n k l l' : Forall2 (fun a b => fst a = fst b /\ alike (snd a) (snd b)) l l' ->
      alike (VStructVariant n k l) (VStructVariant n k l').


Section Types.
Variable tenv : nat -> ty.
Variable fok : fk -> N -> Prop.
(** as [Repr.typed], with raw values *)
Inductive typedr : ty -> val -> Prop :=
  | yr_flat T v : SerRepr.flat v -> typed tenv fok T v -> typedr T v
  | yr_raw r : typedr TRaw (VRaw r)
  | yr_some t v : typedr t v -> typedr (TOption t) (VSome v)
  | yr_newtype name t v : typedr t v -> typedr (TNewtype name t) (VNewtype name v)
  | yr_seq t l : Forall (typedr t) l -> typedr (TSeq t) (VSeq l)
  | yr_tuple ts l : Forall2 typedr ts l -> typedr (TTuple ts) (VTuple l)
  | yr_tuple_struct name ts l : Forall2 typedr ts l -> typedr (TTupleStruct name ts) (VTupleStruct name l)
  | yr_map kt vt m : Forall (fun kv => typedr kt (fst kv) /\ typedr vt (snd kv)) m -> typedr (TMap kt vt) (VMap m)
  | yr_struct deny name fields fs : NoDup (map fst fields) -> map fst fs = map fst fields ->
      Forall (fun fv => exists t, In (fst fv, t) fields /\ typedr t (snd fv)) fs ->
      typedr (TStruct deny name fields) (VStruct name fs)
  | yr_new_variant name variants k t v : NoDup (map fst variants) -> In (k, WNew t) variants ->
      typedr t v -> typedr (TEnum name variants) (VNewVariant name k v)
  | yr_tup_variant name variants k ts l : NoDup (map fst variants) -> In (k, WTup ts) variants ->
      Forall2 typedr ts l -> typedr (TEnum name variants) (VTupVariant name k l)
  | yr_struct_variant name variants k deny fields fs : NoDup (map fst variants) ->
      In (k, WStruct deny fields) variants -> NoDup (map fst fields) -> map fst fs = map fst fields ->
      Forall (fun fv => exists t, In (fst fv, t) fields /\ typedr t (snd fv)) fs ->
      typedr (TEnum name variants) (VStructVariant name k fs)
  | yr_ref n v : (forall m, tenv n <> TRef m) -> typedr (tenv n) v -> typedr (TRef n) v.

End Types.
End WithEnv.

(** the levels of recursion a value takes, [rn r] being those of the raw value [r] *)
Fixpoint needr (rn : str -> nat) (v : val) : nat :=
  match v with
  | VRaw r => rn r
  | VSome v => Datatypes.S (needr rn v)
  | VNewtype _ v => Datatypes.S (needr rn v)
  | VSeq l | VTuple l | VTupleStruct _ l => 2 + max_list (map (needr rn) l)
  | VMap es => 2 + max_list (map (fun kv => Nat.max (needr rn (fst kv)) (needr rn (snd kv))) es)
  | VStruct _ fs => 2 + max_list (map (fun kv => needr rn (snd kv)) fs)
  | VUnitVariant _ _ => 2
  | VNewVariant _ _ v => 2 + needr rn v
  | VTupVariant _ _ l => 3 + max_list (map (needr rn) l)
  | VStructVariant _ _ fs => 3 + max_list (map (fun kv => needr rn (snd kv)) fs)
  | _ => 0
  end%nat.
