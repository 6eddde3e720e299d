(** Model of Value::into_rust: ron::Value as a Deserializer
    (value/mod.rs:121-257), driven by the visitors of the standard types and of
    derived Deserialize implementations. *)
From Coq Require Import NArith ZArith Bool List.
From Verif Require Import Base Value Data Parse De.
Import ListNotations.
Open Scope N_scope.
Open Scope list_scope.

(** the outcome of a conversion; [CFuel] is not an outcome of the code *)
Inductive conv (A : Type) := CVal (a : A) | CErr (e : err) | CFuel.
Arguments CVal {A}. Arguments CErr {A}. Arguments CFuel {A}.
Definition cbind {A B} (m : conv A) (k : A -> conv B) : conv B :=
  match m with CVal a => k a | CErr e => CErr e | CFuel => CFuel end.
Declare Scope cv_scope.
Notation "x <~ m ;; k" := (cbind m (fun x => k)) (at level 61, m at next level, right associativity) : cv_scope.
Open Scope cv_scope.

(** SeqAccessor::next_element_seed (value/mod.rs:206-214) called until it
    returns None *)
Fixpoint all_elems {A} (f : value -> conv A) (l : list value) : conv (list A) :=
  match l with
  | [] => CVal []
  | x :: l' => v <~ f x ;; vs <~ all_elems f l' ;; CVal (v :: vs)
  end.
(** called once for each of [fs]: the values and what is left.  Visitors report
    a missing element by its index (invalid_length, error.rs:396-401). *)
Fixpoint take_elems (fs : list (value -> conv val)) (i : nat) (l : list value) : conv (list val * list value) :=
  match fs with
  | [] => CVal ([], l)
  | f :: fs' =>
      match l with
      | [] => CErr (EExpectedDifferentLength i)
      | x :: l' => v <~ f x ;; p <~ take_elems fs' (S i) l' ;; CVal (v :: fst p, snd p)
      end
  end.
(** MapAccessor::next_key_seed and next_value_seed (value/mod.rs:226-252)
    called in turn until there are no more keys *)
Fixpoint all_entries {A B} (f : value -> conv A) (g : value -> conv B) (es : list (value * value)) : conv (list (A * B)) :=
  match es with
  | [] => CVal []
  | (k, x) :: es' => a <~ f k ;; b <~ g x ;; l <~ all_entries f g es' ;; CVal ((a, b) :: l)
  end.

Section Into.
Context {E : Env}.
(** the table of named types *)
Variable tenv : nat -> ty.

(** The derived field identifier: names as strings, characters or bytes, and
    indices as unsigned integers of up to 64 bits.  [None]: the entry is
    ignored.  (The field visitors of the range types of core know no indices;
    this difference is not modelled.  The name in the error for bytes that are
    not UTF-8 is not modelled either.) *)
Definition field_of (deny : bool) (fields : list (str * ty)) (k : value) : conv (option (str * ty)) :=
  let known (p : str -> bool) (e : err) :=
    match find (fun ft => p (fst ft)) fields with
    | Some ft => CVal (Some ft)
    | None => if deny then CErr e else CVal None
    end in
  match k with
  | XStr s => known (str_eqb s) (ENoSuchStructField s None)
  | XChar c => known (str_eqb [c]) (ENoSuchStructField [c] None)
  | XBytes b => known (fun f => str_eqb b (enc f)) (ENoSuchStructField (match from_utf8 b with Some s => s | None => [] end) None)
  | XNum (NInt (U8 | U16 | U32 | U64) z) =>
      match nth_error fields (Z.to_nat z) with
      | Some ft => CVal (Some ft)
      | None => if deny then CErr EInvalidValueForType else CVal None
      end
  | _ => CErr EInvalidValueForType
  end.

Section Rec.
(** the recursive call *)
Variable rec : ty -> value -> conv val.

(** the loop of a derived visit_map, with the fields read so far; ignored
    values are IgnoredAny, which accepts all *)
Fixpoint struct_entries (deny : bool) (fields : list (str * ty)) (acc : list (str * val)) (es : list (value * value))
  : conv (list (str * val)) :=
  match es with
  | [] => CVal acc
  | (k, x) :: es' =>
      ft <~ field_of deny fields k ;;
      match ft with
      | Some (f, t) =>
          match assoc f acc with
          | Some _ => CErr (EDuplicateStructField f None)
          | None => v <~ rec t x ;; struct_entries deny fields ((f, v) :: acc) es'
          end
      | None => struct_entries deny fields acc es'
      end
  end.
(** missing fields are an error unless they are optional *)
Fixpoint fill (fields : list (str * ty)) (acc : list (str * val)) : conv (list (str * val)) :=
  match fields with
  | [] => CVal []
  | (f, t) :: fields' =>
      v <~ (match assoc f acc with
            | Some v => CVal v
            | None => if is_option tenv t then CVal VNone else CErr (EMissingStructField f None)
            end) ;;
      l <~ fill fields' acc ;;
      CVal ((f, v) :: l)
  end.

(** u8::deserialize, for byte buffers *)
Definition into_byte (x : value) : conv N :=
  match x with
  | XNum n => match num_into n (TInt U8) with Some (VInt _ z) => CVal (Z.to_N z) | _ => CErr EInvalidValueForType end
  | _ => CErr EInvalidValueForType
  end.

(** visit_seq: the value made, and the elements not asked for *)
Definition visit_seq (t : ty) (l : list value) : conv (val * list value) :=
  match t with
  | TSeq t => vs <~ all_elems (rec t) l ;; CVal (VSeq vs, [])
  | TBytes => bs <~ all_elems into_byte l ;; CVal (VBytes bs, [])
  | TTuple ts => p <~ take_elems (map rec ts) 0 l ;; CVal (VTuple (fst p), snd p)
  | TTupleStruct name ts => p <~ take_elems (map rec ts) 0 l ;; CVal (VTupleStruct name (fst p), snd p)
  | TNewtype name t =>
      p <~ take_elems [rec t] 0 l ;;
      match p with ([v], r) => CVal (VNewtype name v, r) | _ => CFuel end
  | TStruct _ name fields =>
      p <~ take_elems (map (fun ft => rec (snd ft)) fields) 0 l ;;
      CVal (VStruct name (combine (map fst fields) (fst p)), snd p)
  | TAny => CVal (embed (norm (XSeq l)), [])
  | TIgnored => CVal (VIgnored, [])
  | _ => CErr EInvalidValueForType
  end.
(** visit_map, likewise *)
Definition visit_map (t : ty) (es : list (value * value)) : conv (val * list (value * value)) :=
  match t with
  | TMap kt vt => l <~ all_entries (rec kt) (rec vt) es ;; CVal (VMap l, [])
  | TStruct deny name fields =>
      acc <~ struct_entries deny fields [] es ;;
      fs <~ fill fields acc ;;
      CVal (VStruct name fs, [])
  | TAny => CVal (embed (norm (XMap es)), [])
  | TIgnored => CVal (VIgnored, [])
  | _ => CErr EInvalidValueForType
  end.
(** the other visit methods *)
Definition visit_str (t : ty) (s : str) : conv val :=
  match t with
  | TStr => CVal (VStr s)
  | TBytes => CVal (VBytes (enc s))
  | TChar => match s with [c] => CVal (VChar c) | _ => CErr EInvalidValueForType end
  (* value/raw.rs:210-228 *)
  | TRaw => match from_str opts_default any_value s with Ok _ _ => CVal (VRaw s) | OutOfFuel => CFuel | _ => CErr EMessage end
  | TAny => CVal (VStr s)
  | TIgnored => CVal VIgnored
  | _ => CErr EInvalidValueForType
  end.
Definition visit_scalar (t : ty) (x : value) : conv val :=
  match x with
  | XBool b => match t with TBool => CVal (VBool b) | TAny => CVal (VBool b) | TIgnored => CVal VIgnored | _ => CErr EInvalidValueForType end
  | XChar c => match t with TChar => CVal (VChar c) | TAny => CVal (VChar c) | _ => visit_str t [c] end
  | XNum n => match num_into n t with Some v => CVal v | None => CErr EInvalidValueForType end
  | XStr s => visit_str t s
  | XBytes b =>
      match t with
      | TBytes => CVal (VBytes b)
      | TStr => match from_utf8 b with Some s => CVal (VStr s) | None => CErr EInvalidValueForType end
      | TAny => CVal (VBytes b)
      | TIgnored => CVal VIgnored
      | _ => CErr EInvalidValueForType
      end
  | XUnit =>
      match t with
      | TUnit => CVal VUnit
      | TUnitStruct name => CVal (VUnitStruct name)
      | TOption _ => CVal VNone
      | TAny => CVal VUnit
      | TIgnored => CVal VIgnored
      | _ => CErr EInvalidValueForType
      end
  | XNone =>
      match t with
      | TOption _ => CVal VNone
      | TAny => CVal VNone
      | TIgnored => CVal VIgnored
      | _ => CErr EInvalidValueForType
      end
  | XSome x =>
      match t with
      | TOption t => v <~ rec t x ;; CVal (VSome v)
      | TAny => CVal (VSome (embed (norm x)))
      | TIgnored => CVal VIgnored
      | _ => CErr EInvalidValueForType
      end
  | XSeq _ | XMap _ => CErr EInvalidValueForType
  end.

(** deserialize_any (value/mod.rs:147-196), to which every other method
    forwards; the 128-bit ones only with the feature integer128 *)
Definition into_step (t : ty) (x : value) : conv val :=
  match x with
  | XSeq l =>
      p <~ visit_seq t l ;;
      if is_nil (snd p) then CVal (fst p) else CErr (EExpectedDifferentLength (length l))
  | XMap es =>
      p <~ visit_map t es ;;
      if is_nil (snd p) then CVal (fst p) else CErr (EExpectedDifferentLength (length es))
  | _ => visit_scalar t x
  end.
End Rec.

(** Value::into_rust (value/mod.rs:123-128).  Enums are never built: a Value
    calls none of their visitor's methods. *)
Fixpoint into_rust (fuel : nat) (t : ty) (x : value) : conv val :=
  match fuel with
  | O => CFuel
  | S f =>
      match t with
      | TRef n => into_rust f (tenv n) x
      | TInt k => if int_supported k then into_step (into_rust f) t x else CErr EMessage
      | _ => into_step (into_rust f) t x
      end
  end.

(** ** Handwritten visitors
    A visitor is what it does in each of its states.  The seeds it passes are
    the types whose values it asks for. *)
Inductive seq_act (St : Type) :=
  | QReturn (v : val)
  | QFail (e : err)
  | QNext (t : ty) (k : option val -> St).
Arguments QReturn {St}. Arguments QFail {St}. Arguments QNext {St}.
Inductive map_act (St : Type) :=
  | PReturn (v : val)
  | PFail (e : err)
  | PKey (t : ty) (k : option val -> St)
  | PValue (t : ty) (k : val -> St).
Arguments PReturn {St}. Arguments PFail {St}. Arguments PKey {St}. Arguments PValue {St}.

Section Visitor.
Variable rec : ty -> value -> conv val.
Variable St : Type.

(** SeqAccessor (value/mod.rs:199-219): what the visitor returns, and the
    elements that are left.  [fuel] bounds the number of calls. *)
Fixpoint run_seq (fuel : nat) (step : St -> seq_act St) (s : St) (l : list value) : conv (val * list value) :=
  match fuel with
  | O => CFuel
  | S f =>
      match step s with
      | QReturn v => CVal (v, l)
      | QFail e => CErr e
      | QNext t k =>
          match l with
          | [] => run_seq f step (k None) []
          | x :: l' => v <~ rec t x ;; run_seq f step (k (Some v)) l'
          end
      end
  end.
(** value/mod.rs:179-193 *)
Definition into_seq (fuel : nat) (step : St -> seq_act St) (s : St) (l : list value) : conv val :=
  p <~ run_seq fuel step s l ;;
  if is_nil (snd p) then CVal (fst p) else CErr (EExpectedDifferentLength (length l)).

(** MapAccessor (value/mod.rs:221-257); [held] is its field [value].  Asking
    for a value when there is none is a panic. *)
Inductive ran (A : Type) := Ran (c : conv A) | RanPanic.
Arguments Ran {A}. Arguments RanPanic {A}.
Fixpoint run_map (fuel : nat) (step : St -> map_act St) (s : St) (held : option value) (es : list (value * value))
  : ran (val * list (value * value)) :=
  match fuel with
  | O => Ran CFuel
  | S f =>
      match step s with
      | PReturn v => Ran (CVal (v, es))
      | PFail e => Ran (CErr e)
      | PKey t k =>
          match es with
          | [] => run_map f step (k None) held []
          | (y, x) :: es' =>
              match rec t y with
              | CVal v => run_map f step (k (Some v)) (Some x) es'
              | CErr e => Ran (CErr e)
              | CFuel => Ran CFuel
              end
          end
      | PValue t k =>
          match held with
          | None => RanPanic
          | Some x =>
              match rec t x with
              | CVal v => run_map f step (k v) None es
              | CErr e => Ran (CErr e)
              | CFuel => Ran CFuel
              end
          end
      end
  end.
(** value/mod.rs:154-173 *)
Definition into_map (fuel : nat) (step : St -> map_act St) (s : St) (es : list (value * value)) : ran val :=
  match run_map fuel step s None es with
  | Ran m => Ran (p <~ m ;; if is_nil (snd p) then CVal (fst p) else CErr (EExpectedDifferentLength (length es)))
  | RanPanic => RanPanic
  end.
End Visitor.
End Into.
Arguments QReturn {St}. Arguments QFail {St}. Arguments QNext {St}.
Arguments PReturn {St}. Arguments PFail {St}. Arguments PKey {St}. Arguments PValue {St}.
Arguments Ran {A}. Arguments RanPanic {A}.
