(** The values whose ranges survive compact_ranges. *)
From Coq Require Import String Ascii NArith ZArith Lia Bool List.
From Verif Require Import Base Value Data Parse De Ser EnvOk SerLex Lit Repr.
Import ListNotations.
Open Scope N_scope.
Open Scope list_scope.

Section WithEnv.
Context {E : Env}.

(** Rust's [as] between f32 and f64 keeps infinities and the canonical NaNs *)
Definition widens : Prop := forall k t f, special_float t f -> f_widen (f F32) = f k \/ k = F32.
Definition narrows : Prop := forall t f, special_float t f -> f_narrow (f F64) = f F32.

(** the six kinds of range, by name and number of fields *)
Definition ranges : list (str * list str) :=
  [(s_Range, [s_start; s_end]); (s_RangeInclusive, [s_start; s_end]);
   (s_RangeFrom, [s_start]); (s_RangeTo, [s_end]); (s_RangeToInclusive, [s_end])].
Definition range_named (name : str) (len : nat) : bool :=
  existsb (fun r => str_eqb name (fst r) && Nat.eqb len (length (snd r))) ranges.
Definition is_number (v : val) : bool := match v with VInt _ _ | VFloat _ _ => true | _ => false end.
(** a range with numbers for bounds *)
Definition numeric_range (name : str) (fs : list (str * val)) : bool :=
  existsb (fun r => str_eqb name (fst r) && strs_eqb (map fst fs) (snd r)) ranges
  && forallb (fun kv => is_number (snd kv)) fs.

(** [sfx]: numbers are written with their suffix; [e]: the extensions in force *)
Variable e : exts.
Variable sfx : bool.
(** a bound that reads back: without a suffix the text of an f32 is read as an
    f64 and narrowed *)
Definition bound_fine (v : val) : Prop :=
  match v with
  | VInt k z => in_range k z = true
  | VFloat F32 b => sfx = true \/ exists b', f_read F64 (SerLex.float_text F32 b) = Some b' /\ f_narrow b' = b
  | _ => True
  end.
(** the text is neither [inf] nor [NaN] *)
Definition leads (v : val) : Prop :=
  match v with VFloat k b => f_finite k b \/ f_sign k b = true | _ => True end.
(** the end of a half-open range of numbers is not written [inf] or [NaN]: where
    no type is asked for, these are not looked for after the dots *)
Definition ends_fine (n : str) (fs : list (str * val)) : Prop :=
  numeric_range n fs = true -> n = s_Range \/ n = s_RangeTo -> leads (snd (last fs ([], VUnit))).
(** [b]: the value is the field of a newtype variant, under
    unwrap_variant_newtypes *)
Fixpoint range_fine (b : bool) (v : val) : Prop :=
  match v with
  | VStruct n fs =>
      if numeric_range n fs then
        widens /\ all (fun kv => bound_fine (snd kv)) fs /\
        match fs with [(_, a); _] => leads a | _ => True end
      else
        (range_named n (length fs) = true -> x_explicit_struct_names e = false /\ b = false) /\
        all (fun kv => range_fine false (snd kv)) fs
  | VSome v => range_fine (if x_implicit_some e then b else x_unwrap_variant_newtypes e) v
  | VNewVariant _ _ v => range_fine (x_unwrap_variant_newtypes e) v
  | VNewtype _ v => range_fine false v
  | VSeq l | VTuple l | VTupleStruct _ l | VTupVariant _ _ l => all (range_fine false) l
  | VMap es => all (fun kv => range_fine false (fst kv) /\ range_fine false (snd kv)) es
  | VStructVariant _ _ fs => all (fun kv => range_fine false (snd kv)) fs
  | _ => True
  end.
End WithEnv.
(** with compact_ranges, and at the top of a document *)
Definition ranges_ok {E : Env} (e : exts) (cfg : option pconf) (b : bool) (v : val) : Prop :=
  compact_ranges cfg = true -> range_fine e (number_suffixes cfg) b v.
