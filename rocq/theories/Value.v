(** ron::Value, its order and its map. *)
From Coq Require Import NArith ZArith Bool List.
From Verif Require Import Base.
Import ListNotations.
Open Scope N_scope.

(** Value (value/mod.rs:23-34).  [Value::Option] is split in two constructors.
    A map is the list of its entries in iteration order (value/map.rs:19-25,
    feature "indexmap" off: a BTreeMap, so sorted by key, see [map_sorted]). *)
Inductive value :=
  | XBool (b : bool)
  | XChar (c : char)
  | XMap (m : list (value * value))
  | XNum (n : num)
  | XNone
  | XSome (v : value)
  | XStr (s : str)
  | XBytes (b : bytes)
  | XSeq (l : list value)
  | XUnit.

(** ** Order *)

Definition lex (a b : comparison) : comparison :=
  match a with Eq => b | _ => a end.

Definition bool_cmp (a b : bool) : comparison :=
  match a, b with
  | false, true => Lt | true, false => Gt | _, _ => Eq
  end.

(** Ord for Vec / slices / str: lexicographic.  [str] compares its bytes; on
    valid text that is the order of the characters (proved in ValueFacts). *)
Fixpoint list_cmp {A} (cmp : A -> A -> comparison) (a b : list A) : comparison :=
  match a, b with
  | [], [] => Eq
  | [], _ => Lt
  | _, [] => Gt
  | x :: a', y :: b' => lex (cmp x y) (list_cmp cmp a' b')
  end.

(** declaration order of the enum Number (value/number.rs:38-56) *)
Definition ik_rank (k : ik) : N :=
  match k with
  | I8 => 0 | I16 => 1 | I32 => 2 | I64 => 3 | I128 => 4
  | U8 => 5 | U16 => 6 | U32 => 7 | U64 => 8 | U128 => 9
  end.
Definition num_rank (n : num) : N :=
  match n with
  | NInt k _ => ik_rank k
  | NFloat F32 _ => 10
  | NFloat F64 _ => 11
  end.

(** f32::total_cmp / f64::total_cmp (value/number.rs:265-269): the bits as a
    sign-magnitude number, negative ones reversed and below the positive. *)
Definition total_key (k : fk) (b : N) : Z :=
  if f_sign k b then (- Z.of_N (f_abs k b) - 1)%Z else Z.of_N (f_abs k b).
Definition total_cmp (k : fk) (a b : N) : comparison :=
  Z.compare (total_key k a) (total_key k b).

(** derived Ord of Number (value/number.rs:36) *)
Definition num_cmp (a b : num) : comparison :=
  match a, b with
  | NInt k x, NInt k' y =>
      if ik_eqb k k' then Z.compare x y else N.compare (num_rank a) (num_rank b)
  | NFloat k x, NFloat k' y =>
      if fk_eqb k k' then total_cmp k x y else N.compare (num_rank a) (num_rank b)
  | _, _ => N.compare (num_rank a) (num_rank b)
  end.

(** declaration order of Value (value/mod.rs:24-34) *)
Definition value_rank (v : value) : N :=
  match v with
  | XBool _ => 0 | XChar _ => 1 | XMap _ => 2 | XNum _ => 3
  | XNone | XSome _ => 4 | XStr _ => 5 | XBytes _ => 6 | XSeq _ => 7 | XUnit => 8
  end.

(** derived Ord of Value (value/mod.rs:23); maps compare as their entry
    iterators (value/map.rs:170-174) *)
Fixpoint value_cmp (a b : value) {struct a} : comparison :=
  match a, b with
  | XBool x, XBool y => bool_cmp x y
  | XChar x, XChar y => N.compare x y
  | XMap x, XMap y =>
      (fix go (x y : list (value * value)) : comparison :=
         match x, y with
         | [], [] => Eq
         | [], _ => Lt
         | _, [] => Gt
         | (k, v) :: x', (k', v') :: y' =>
             lex (value_cmp k k') (lex (value_cmp v v') (go x' y'))
         end) x y
  | XNum x, XNum y => num_cmp x y
  | XNone, XNone => Eq
  | XNone, XSome _ => Lt
  | XSome _, XNone => Gt
  | XSome x, XSome y => value_cmp x y
  | XStr x, XStr y => list_cmp N.compare x y
  | XBytes x, XBytes y => list_cmp N.compare x y
  | XSeq x, XSeq y =>
      (fix go (x y : list value) : comparison :=
         match x, y with
         | [], [] => Eq
         | [], _ => Lt
         | _, [] => Gt
         | v :: x', w :: y' => lex (value_cmp v w) (go x' y')
         end) x y
  | XUnit, XUnit => Eq
  | _, _ => N.compare (value_rank a) (value_rank b)
  end.

(** PartialEq: derived on Value, [self.cmp(other).is_eq()] on floats and maps
    (value/number.rs:204-208, value/map.rs:155-159). *)
Definition value_eqb (a b : value) : bool :=
  match value_cmp a b with Eq => true | _ => false end.

(** ** Map (value/map.rs) *)

(** BTreeMap::insert (map.rs:56-58); std's tree is represented by its sorted
    entry list.  An existing key is kept, its value replaced and returned. *)
Fixpoint map_insert (k v : value) (m : list (value * value))
  : option value * list (value * value) :=
  match m with
  | [] => (None, [(k, v)])
  | (k', v') :: m' =>
      match value_cmp k k' with
      | Lt => (None, (k, v) :: m)
      | Eq => (Some v', (k', v) :: m')
      | Gt => let (o, r) := map_insert k v m' in (o, (k', v') :: r)
      end
  end.

(** get (map.rs:46-48) *)
Fixpoint map_get (k : value) (m : list (value * value)) : option value :=
  match m with
  | [] => None
  | (k', v') :: m' =>
      match value_cmp k k' with
      | Lt => None
      | Eq => Some v'
      | Gt => map_get k m'
      end
  end.

(** remove (map.rs:61-70) *)
Fixpoint map_remove (k : value) (m : list (value * value))
  : option value * list (value * value) :=
  match m with
  | [] => (None, [])
  | (k', v') :: m' =>
      match value_cmp k k' with
      | Lt => (None, m)
      | Eq => (Some v', m')
      | Gt => let (o, r) := map_remove k m' in (o, (k', v') :: r)
      end
  end.

(** retain (map.rs:104-110), for a predicate that does not change the value *)
Definition map_retain (p : value -> value -> bool) (m : list (value * value)) :=
  filter (fun kv => p (fst kv) (snd kv)) m.

(** repeated insertion: FromIterator (map.rs:138-146) and the loop of
    ValueVisitor::visit_map (de/value.rs:220-236) *)
Definition map_of_list (l : list (value * value)) : list (value * value) :=
  fold_left (fun m kv => snd (map_insert (fst kv) (snd kv) m)) l [].

(** The parser model returns map entries in document order; [norm] is what
    ValueVisitor builds from them (de/value.rs:220-236). *)
Fixpoint norm (v : value) : value :=
  match v with
  | XMap m => XMap (map_of_list (map (fun kv => (norm (fst kv), norm (snd kv))) m))
  | XSome v => XSome (norm v)
  | XSeq l => XSeq (map norm l)
  | _ => v
  end.

(** ** Hash: what is fed to the Hasher, in order *)
Inductive hash_write :=
  | HTag (n : N)            (* mem::discriminant of an enum *)
  | HInt (k : ik) (z : Z)   (* write_i8 .. write_u128 *)
  | HBits (k : fk) (b : N)  (* to_bits().hash (value/number.rs:221-225) *)
  | HByte (b : N) | HChar (c : char) | HLen (n : nat).
(** derived Hash of Number (value/number.rs:36) *)
Definition num_hash (n : num) : list hash_write :=
  HTag (num_rank n) :: match n with NInt k z => [HInt k z] | NFloat k b => [HBits k b] end.
(** derived Hash of Value (value/mod.rs:23); a Map hashes its entries in
    iteration order, without a length (value/map.rs:176-180); core hashes str
    as its bytes and a 0xff, slices with their length first *)
Fixpoint value_hash (v : value) : list hash_write :=
  HTag (value_rank v) ::
  match v with
  | XBool b => [HByte (if b then 1 else 0)]
  | XChar c => [HChar c]
  | XMap m => flat_map (fun kv => value_hash (fst kv) ++ value_hash (snd kv)) m
  | XNum n => num_hash n
  | XNone => [HTag 0]
  | XSome v => HTag 1 :: value_hash v
  | XStr s => map HByte (enc s) ++ [HByte 255]
  | XBytes b => HLen (length b) :: map HByte b
  | XSeq l => HLen (length l) :: flat_map value_hash l
  | XUnit => []
  end.
