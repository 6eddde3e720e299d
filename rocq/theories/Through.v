(** Specification for reading through a Value (C34): values that are the same up
    to the order of map entries, and the values for which the two ways agree. *)
From Coq Require Import NArith ZArith Bool List Permutation.
From Verif Require Import Base Value Data De Parse EnvOk Ser Repr RangeSpec VRepr ValueFacts.
Import ListNotations.
Open Scope N_scope.
Open Scope list_scope.

(** the least congruence under which the order of map entries does not matter *)
Inductive same : val -> val -> Prop :=
  | sm_refl v : same v v
  | sm_sym v w : same v w -> same w v
  | sm_trans v w u : same v w -> same w u -> same v u
  | sm_perm es es' : Permutation es es' -> same (VMap es) (VMap es')
  | sm_some v w : same v w -> same (VSome v) (VSome w)
  | sm_newtype n v w : same v w -> same (VNewtype n v) (VNewtype n w)
  | sm_seq l l' : Forall2 same l l' -> same (VSeq l) (VSeq l')
  | sm_tuple l l' : Forall2 same l l' -> same (VTuple l) (VTuple l')
  | sm_tuple_struct n l l' : Forall2 same l l' -> same (VTupleStruct n l) (VTupleStruct n l')
  | sm_map es es' : Forall2 (fun a b => same (fst a) (fst b) /\ same (snd a) (snd b)) es es' -> same (VMap es) (VMap es')
  | sm_struct n fs fs' : Forall2 (fun a b => fst a = fst b /\ same (snd a) (snd b)) fs fs' -> same (VStruct n fs) (VStruct n fs').

Section WithEnv.
Context {E : Env}.
(** [rg]: ranges may be in range syntax *)
Variable rg : bool.

(** No enums, as a Value does not store them; no tuple or struct without
    fields, as its text is the one of the unit; no key twice in a map; and a range that
    may be in range syntax has bounds that are supported and an end that is not
    spelled [inf] or [NaN] after [..]. *)
Definition supported (v : val) : Prop := match v with VInt k _ => int_supported k = true | _ => True end.
Definition range_through (n : str) (fs : list (str * val)) : Prop :=
  ends_fine n fs /\ (numeric_range n fs = true -> all (fun kv => supported (snd kv)) fs).
Fixpoint through (v : val) : Prop :=
  match v with
  | VSome v | VNewtype _ v => through v
  | VSeq l => all through l
  | VTuple l | VTupleStruct _ l => l <> [] /\ all through l
  | VMap es => ForallOrdPairs (fun a b => ~ same (fst a) (fst b)) es /\ all (fun kv => through (fst kv) /\ through (snd kv)) es
  | VStruct n fs => fs <> [] /\ (rg = true -> range_through n fs) /\ all (fun kv => through (snd kv)) fs
  | VUnitVariant _ _ | VNewVariant _ _ _ | VTupVariant _ _ _ | VStructVariant _ _ _ => False
  | _ => True
  end.

(** Spellings with which the two ways agree: floats whose text, read without
    knowing the type, is converted to the same float; names that are not taken
    for something else; range syntax as far as [rg] allows it. *)
Definition neutral (k : token) : Prop :=
  match k with
  | KInt _ _ _ => True
  | KFloat _ k b t => exists n, num_text n t /\ wf_num n /\ num_into n (TFloat k) = Some (VFloat k b)
  | KName t => ~ In t keywords
  | KRange => rg = true
  end.
End WithEnv.
