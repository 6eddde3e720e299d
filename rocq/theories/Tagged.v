(** Model of reading internally tagged enums (#[serde(tag = "...")]).

    serde's derived implementation calls deserialize_any with its private
    TaggedContentVisitor, which takes the tag out of a map or the front of a
    sequence and collects the rest into a Content.  The deserializer recognises
    that visitor's key type (de/mod.rs:1388-1465) and hands out the value of the
    tag through tag::Deserializer. *)
From Coq Require Import NArith ZArith Bool List.
From Verif Require Import Base Value Data Parse De IntoRust Content.
Import ListNotations.
Open Scope N_scope.
Open Scope list_scope.
Open Scope m_scope.

(** the variants such an enum can have *)
Inductive ivariant := IUnit | INew (t : ty) | IStruct (deny : bool) (fields : list (str * ty)).

Section Tagged.
Context {E : Env}.
Variable tag : str.
Variable variants : list (str * ivariant).

(** serde's TagOrContentVisitor *)
Definition is_tag (k : value) : bool :=
  match k with
  | XStr s => str_eqb s tag
  | XBytes b => str_eqb b (enc tag)
  | _ => false
  end.
Definition variant_of (s : str) : M (str * ivariant) :=
  match find (fun v => str_eqb s (fst v)) variants with
  | Some v => ret v
  | None => fail (ENoSuchEnumVariant s None)
  end.
(** tag::Deserializer: every method serde's identifier visitor may call ends in
    deserialize_str (de/tag.rs:15-44) *)
Definition tag_value : M (str * ivariant) := s <- parse_string ;; variant_of s.
(** MapAccess of CommaSeparated for this visitor (de/mod.rs:1129-1178): the
    value of the tag is read by [tag_value], that of another key into the
    buffer *)
Fixpoint tagged_loop (n : nat) (term : char) (key : M value) (seen : option (str * ivariant)) (had : bool)
  : M (option (str * ivariant) * list (value * value)) :=
  match n with
  | O => oof
  | S n' =>
      k <- next_key term key had ;;
      match k with
      | None => ret (seen, [])
      | Some k =>
          if is_tag k then
            match seen with
            | Some _ => fail (EDuplicateStructField tag None)
            | None => p <- next_value tag_value ;; tagged_loop n' term key (Some (fst p)) (snd p)
            end
          else
            p <- next_value content_value ;;
            q <- tagged_loop n' term key seen (snd p) ;;
            ret (fst q, (k, fst p) :: snd q)
      end
  end.
Definition tagged_map (term : char) (key : M value) : M ((str * ivariant) * value) :=
  r <- src ;;
  q <- tagged_loop (2 + length r) term key None true ;;
  match fst q with
  | Some v => ret (v, XMap (snd q))
  | None => fail (EMissingStructField tag None)
  end.
(** the tag is the first element, written as an identifier *)
Definition tagged_seq (term : char) : M ((str * ivariant) * value) :=
  r <- src ;;
  p <- next_element term (s <- de_identifier ;; variant_of s) true ;;
  match p with
  | (None, _) => fail (EMissingStructField tag None)
  | (Some v, c) => l <- seq_loop (2 + length r) term content_value c ;; ret (v, XSeq l)
  end.
(** The visitor refuses everything but maps and sequences.  (A range is a map.
    That its keys may be called like the tag is left out.) *)
Definition untaggable {A} (m : M value) : M A :=
  x <- m ;;
  match x with
  | XMap _ => fail (EMissingStructField tag None)
  | _ => fail EInvalidValueForType
  end.
(** handle_any_struct (de/mod.rs:174-234); the visitor is not that of Content *)
Definition tagged_struct : M ((str * ivariant) * value) :=
  t <- check_struct_type true false ;;
  match t with
  | SUnit => fail EInvalidValueForType
  | Named => struct_after_name [] (tagged_map c_rp (k <- de_identifier ;; ret (XStr k)))
  | _ => de_tuple (tagged_seq c_rp)
  end.
(** deserialize_any after the newtype_variant prologue (de/mod.rs:351-423) *)
Definition tagged_main : M ((str * ivariant) * value) :=
  b <- consume_ident s_true ;;
  if b then fail EInvalidValueForType else
  b <- consume_ident s_false ;;
  if b then fail EInvalidValueForType else
  b <- check_ident s_Some ;;
  if b then de_option tt (fail EInvalidValueForType) ;;; fail EInvalidValueForType else
  b <- consume_ident s_None ;;
  if b then fail EInvalidValueForType else
  b <- consume_str s_unit ;;
  if b then fail EInvalidValueForType else
  b <- consume_ident s_inf ;;
  b <- (if b then ret true else consume_ident s_inff32) ;;
  if b then untaggable (float_range_or_value (NFloat F32 (f_inf F32))) else
  b <- consume_ident s_inff64 ;;
  if b then untaggable (float_range_or_value (NFloat F64 (f_inf F64))) else
  b <- consume_ident s_NaN ;;
  b <- (if b then ret true else consume_ident s_NaNf32) ;;
  if b then untaggable (float_range_or_value (NFloat F32 (f_nan F32))) else
  b <- consume_ident s_NaNf64 ;;
  if b then untaggable (float_range_or_value (NFloat F64 (f_nan F64))) else
  id <- skip_identifier ;;
  match id with
  | Some _ => skip_ws ;;; tagged_struct
  | None =>
      c <- peek_char_or_eof ;;
      if c =? c_lp then tagged_struct
      else if c =? c_lb then de_seq (tagged_seq c_rb)
      else if c =? c_lc then de_map (tagged_map c_rc content_value)
      else if is_digit c || (c =? c_plus) || (c =? c_minus) || (c =? c_dot) || (c =? c_b)
      then untaggable any_number_or_bytes
      else if (c =? c_dq) || (c =? c_r) then parse_string ;;; fail EInvalidValueForType
      else if c =? c_sq then parse_char ;;; fail EInvalidValueForType
      else fail (EUnexpectedChar c)
  end.
(** deserialize_any (de/mod.rs:313-424) *)
Definition tagged_any : M ((str * ivariant) * value) :=
  s <- get ;;
  if nt s then
    rp <- check_char c_rp ;;
    if rp then de_unit ;;; fail EInvalidValueForType
    else
      t <- check_struct_type false true ;;
      match t with
      | Named => struct_after_name [] (tagged_map c_rp (k <- de_identifier ;; ret (XStr k)))
      | EmptyTuple | NonNewtypeTuple => de_tuple (tagged_seq c_rp)
      | _ => modify (set_nt false) ;;; tagged_main
      end
  else tagged_main.
End Tagged.

(** ** From the buffer to the variant

    serde's code: ContentDeserializer, which unlike the ContentRefDeserializer
    of [of_content] reads a unit from an empty map and a unit struct from an
    empty map or sequence. *)
Section Of.
Context {E : Env}.
Variable tenv : nat -> ty.
Open Scope cv_scope.
Fixpoint of_owned (fuel : nat) (t : ty) (x : value) : conv val :=
  match fuel with
  | O => CFuel
  | S f =>
      match t with
      | TRef n => of_owned f (tenv n) x
      | TUnit => match x with XUnit | XMap [] => CVal VUnit | _ => CErr EInvalidValueForType end
      | TUnitStruct name => match x with XUnit | XMap [] | XSeq [] => CVal (VUnitStruct name) | _ => CErr EInvalidValueForType end
      | _ => content_step tenv (of_owned f) t x
      end
  end.
(** InternallyTaggedUnitVisitor skips the entries of a map, but leaves the
    elements of a sequence, of which there must be none *)
Definition of_tagged (fuel : nat) (name : str) (k : str * ivariant) (x : value) : conv val :=
  match snd k with
  | IUnit =>
      match x with
      | XMap _ | XSeq [] => CVal (VUnitVariant name (fst k))
      | XSeq l => CErr (EExpectedDifferentLength (length l))
      | _ => CErr EInvalidValueForType
      end
  | INew t => v <~ of_owned fuel t x ;; CVal (VNewVariant name (fst k) v)
  | IStruct deny fields => fs <~ content_struct_of tenv (of_owned fuel) deny fields x ;; CVal (VStructVariant name (fst k) fs)
  end.
End Of.

(** an enum [name] with the tag [tag] *)
Definition de_tagged {E : Env} (tenv : nat -> ty) (fuel : nat) (tag name : str) (variants : list (str * ivariant)) : M val :=
  p <- tagged_any tag variants ;;
  match of_tagged tenv fuel name (fst p) (snd p) with CVal v => ret v | CErr e => fail e | CFuel => oof end.

(** ** Writing

    serde's code: unit and struct variants are written as a struct with the tag
    as its first field.  The value in a newtype variant is written through
    serde's TaggedSerializer, which passes newtype structs through,
    adds the tag to structs and maps, writes units and variants as maps, and fails for everything else.  (Options are
    left out: what it does with them depends on the version of serde.) *)
Fixpoint tag_onto (tag k : str) (v : val) : option val :=
  let t := (VStr tag, VStr k) in
  match v with
  | VNewtype _ v => tag_onto tag k v
  | VStruct n fs => Some (VStruct n ((tag, VStr k) :: fs))
  | VMap es => Some (VMap (t :: es))
  | VUnit | VUnitStruct _ => Some (VMap [t])
  | VUnitVariant _ k' => Some (VMap [t; (VStr k', VUnit)])
  | VNewVariant _ k' x => Some (VMap [t; (VStr k', x)])
  | VTupVariant _ k' l => Some (VMap [t; (VStr k', VTupleStruct k' l)])
  | VStructVariant _ k' fs => Some (VMap [t; (VStr k', VStruct k' fs)])
  | _ => None
  end.
Definition as_tagged (tag : str) (v : val) : option val :=
  match v with
  | VUnitVariant n k => Some (VStruct n [(tag, VStr k)])
  | VStructVariant n k fs => Some (VStruct n ((tag, VStr k) :: fs))
  | VNewVariant _ k v => tag_onto tag k v
  | _ => None
  end.
