(** Model of reading adjacently tagged enums (#[serde(tag = "...", content =
    "...")]).

    serde's derived implementation calls deserialize_struct with the tag and the
    content as its fields.  If the tag comes first, the content is read as what
    the variant holds; if the content comes first, it is collected into a
    Content. *)
From Coq Require Import NArith ZArith Bool List.
From Verif Require Import Base Value Data Parse De IntoRust Content Tagged.
Import ListNotations.
Open Scope N_scope.
Open Scope list_scope.
Open Scope m_scope.
Open Scope cv_scope.

(** the variants such an enum can have *)
Inductive avariant := AUnit | ANew (t : ty) | ATup (ts : list ty) | AStruct (deny : bool) (fields : list (str * ty)).

(** ** A struct visitor given to deserialize_any

    This is how the fields of a struct variant are read; its visitor has
    visit_map only. *)
Section AnyStruct.
Context {E : Env}.
Variable tenv : nat -> ty.
Variable rec : ty -> M val.
Variable deny : bool.
Variable fields : list (str * ty).

(** [struct_loop] with any closing bracket *)
Fixpoint fields_loop (n : nat) (term : char) (acc : list (str * val)) (had : bool) : M (list (str * val)) :=
  match n with
  | O => oof
  | S n' =>
      k <- next_key term (field_key deny fields) had ;;
      match k with
      | None => ret acc
      | Some k =>
          match assoc k fields with
          | Some t =>
              match assoc k acc with
              | Some _ => fail (EDuplicateStructField k None)
              | None => p <- next_value (rec t) ;; fields_loop n' term ((k, fst p) :: acc) (snd p)
              end
          | None => p <- next_value any_value ;; fields_loop n' term acc (snd p)
          end
      end
  end.
(** visit_map *)
Definition fields_map (term : char) : M (list (str * val)) :=
  r <- src ;;
  acc <- fields_loop (2 + length r) term [] true ;;
  collect (is_option tenv) fields acc.
(** RangeMapAccess and RangeFromMapAccess (de/mod.rs:979-1107) hand out the
    bounds; everything else but maps is refused *)
Definition range_struct (m : M value) : M (list (str * val)) :=
  x <- m ;;
  match x with
  | XMap es =>
      match (acc <~ struct_entries (fun t y =>
                      match y with
                      | XNum n => match num_into n (resolve tenv t) with Some v => CVal v | None => CErr EInvalidValueForType end
                      | _ => CErr EInvalidValueForType
                      end) deny fields [] es ;;
             fill tenv fields acc) with
      | CVal l => ret l
      | CErr e => fail e
      | CFuel => oof
      end
  | _ => fail EInvalidValueForType
  end.
(** handle_any_struct (de/mod.rs:174-234); the visitor is not that of Content *)
Definition any_struct_body : M (list (str * val)) :=
  t <- check_struct_type true false ;;
  match t with
  | SUnit => fail EInvalidValueForType
  | Named => struct_after_name [] (fields_map c_rp)
  | _ => de_tuple (fail EInvalidValueForType)
  end.
(** deserialize_any (de/mod.rs:351-423).  The content stands behind a colon,
    where [newtype_variant] is false, so that the prologue (de/mod.rs:316-349)
    is passed over. *)
Definition any_struct : M (list (str * val)) :=
  b <- consume_ident s_true ;;
  if b then fail EInvalidValueForType else
  b <- consume_ident s_false ;;
  if b then fail EInvalidValueForType else
  b <- check_ident s_Some ;;
  if b then de_option tt (fail EInvalidValueForType) ;;; fail EInvalidValueForType else
  b <- consume_ident s_None ;;
  if b then fail EInvalidValueForType else
  b <- consume_str s_unit ;;
  if b then fail EInvalidValueForType else
  b <- consume_ident s_inf ;;
  b <- (if b then ret true else consume_ident s_inff32) ;;
  if b then range_struct (float_range_or_value (NFloat F32 (f_inf F32))) else
  b <- consume_ident s_inff64 ;;
  if b then range_struct (float_range_or_value (NFloat F64 (f_inf F64))) else
  b <- consume_ident s_NaN ;;
  b <- (if b then ret true else consume_ident s_NaNf32) ;;
  if b then range_struct (float_range_or_value (NFloat F32 (f_nan F32))) else
  b <- consume_ident s_NaNf64 ;;
  if b then range_struct (float_range_or_value (NFloat F64 (f_nan F64))) else
  id <- skip_identifier ;;
  match id with
  | Some _ => skip_ws ;;; any_struct_body
  | None =>
      c <- peek_char_or_eof ;;
      if c =? c_lp then any_struct_body
      else if c =? c_lb then de_seq (fail EInvalidValueForType)
      else if c =? c_lc then de_map (fields_map c_rc)
      else if is_digit c || (c =? c_plus) || (c =? c_minus) || (c =? c_dot) || (c =? c_b)
      then range_struct any_number_or_bytes
      else if (c =? c_dq) || (c =? c_r) then parse_string ;;; fail EInvalidValueForType
      else if c =? c_sq then parse_char ;;; fail EInvalidValueForType
      else fail (EUnexpectedChar c)
  end.
End AnyStruct.

Section Adjacent.
Context {E : Env}.
Variable tenv : nat -> ty.
Variable fuel : nat.
Variables tag content : str.
Variable deny : bool.
Variable ename : str.
Variable variants : list (str * avariant).

(** serde's TagOrContentFieldVisitor and TagContentOtherFieldVisitor: the tag,
    the content, or another field, which an enum may deny *)
Inductive akey := KeyTag | KeyContent | KeyOther.
Definition adjacent_key : M akey :=
  k <- de_identifier ;;
  if str_eqb k tag then ret KeyTag
  else if str_eqb k content then ret KeyContent
  else if deny then fail EInvalidValueForType else ret KeyOther.
(** the next field that is not ignored: is it the tag? *)
Fixpoint relevant_key (n : nat) (had : bool) : M (option bool) :=
  match n with
  | O => oof
  | S n' =>
      k <- next_key c_rp adjacent_key had ;;
      match k with
      | None => ret None
      | Some KeyTag => ret (Some true)
      | Some KeyContent => ret (Some false)
      | Some KeyOther => p <- next_value any_value ;; relevant_key n' (snd p)
      end
  end.
(** the value of the tag is a unit variant (deserialize_enum, de/mod.rs:876-900) *)
Definition adjacent_tag : M (str * avariant) :=
  x <- de_step tenv (fun _ => oof) (TEnum ename (map (fun p => (fst p, WUnit)) variants)) ;;
  match x with
  | VUnitVariant _ k => match assoc k variants with Some w => ret (k, w) | None => fail (ENoSuchEnumVariant k None) end
  | _ => oof
  end.
(** the content of a variant.  (The visitor of a unit variant refuses other
    values earlier than here, where they are first read, which only matters
    for which error is reported.) *)
Definition adjacent_value (k : str * avariant) : M val :=
  match snd k with
  | AUnit =>
      x <- any_value ;;
      match x with XUnit | XNone => ret (VUnitVariant ename (fst k)) | _ => fail EInvalidValueForType end
  | ANew t => v <- de_ty tenv fuel t ;; ret (VNewVariant ename (fst k) v)
  | ATup ts => de_tuple (l <- tuple_elems (map (de_ty tenv fuel) ts) 0 true ;; ret (VTupVariant ename (fst k) l))
  | AStruct deny fields => l <- any_struct tenv (de_ty tenv fuel) deny fields ;; ret (VStructVariant ename (fst k) l)
  end.
(** the content of a variant from the buffer: serde's ContentDeserializer *)
Definition of_adjacent (k : str * avariant) (x : value) : conv val :=
  match snd k with
  | AUnit => match x with XUnit | XNone => CVal (VUnitVariant ename (fst k)) | _ => CErr EInvalidValueForType end
  | ANew t => v <~ of_owned tenv fuel t x ;; CVal (VNewVariant ename (fst k) v)
  | ATup ts =>
      match x with
      | XSeq l => vs <~ exact_elems (map (of_owned tenv fuel) ts) l ;; CVal (VTupVariant ename (fst k) vs)
      | _ => CErr EInvalidValueForType
      end
  | AStruct deny fields =>
      match x with
      | XMap es => fs <~ content_fields tenv (of_owned tenv fuel) deny fields es ;; CVal (VStructVariant ename (fst k) fs)
      | _ => CErr EInvalidValueForType
      end
  end.
(** no content at all *)
Definition no_content (k : str * avariant) : M val :=
  match snd k with
  | AUnit => ret (VUnitVariant ename (fst k))
  | ANew t => if is_option tenv t then ret (VNewVariant ename (fst k) VNone) else fail (EMissingStructField content None)
  | _ => fail (EMissingStructField content None)
  end.
(** neither the tag nor the content may come again *)
Definition no_more (n : nat) (had : bool) (v : val) : M val :=
  k <- relevant_key n had ;;
  match k with
  | None => ret v
  | Some true => fail (EDuplicateStructField tag None)
  | Some false => fail (EDuplicateStructField content None)
  end.
(** visit_map *)
Definition adjacent_body : M val :=
  r <- src ;;
  let n := (2 + length r)%nat in
  k <- relevant_key n true ;;
  match k with
  | None => fail (EMissingStructField tag None)
  | Some true =>
      p <- next_value adjacent_tag ;;
      k2 <- relevant_key n (snd p) ;;
      match k2 with
      | None => no_content (fst p)
      | Some true => fail (EDuplicateStructField tag None)
      | Some false => q <- next_value (adjacent_value (fst p)) ;; no_more n (snd q) (fst q)
      end
  | Some false =>
      p <- next_value content_value ;;
      k2 <- relevant_key n (snd p) ;;
      match k2 with
      | None => fail (EMissingStructField tag None)
      | Some false => fail (EDuplicateStructField content None)
      | Some true =>
          q <- next_value adjacent_tag ;;
          v <- (match of_adjacent (fst q) (fst p) with CVal v => ret v | CErr e => fail e | CFuel => oof end) ;;
          no_more n (snd q) v
      end
  end.
(** deserialize_struct (de/mod.rs:772-874).  (That an enum called like a range,
    with a tag and content called like its bounds, is read from a range is left
    out: neither bound can hold the name of a variant.) *)
Definition de_adjacent : M val :=
  r <- range_prologue ename [tag; content] ;;
  match r with
  | Some _ => fail EInvalidValueForType
  | None =>
      s <- get ;;
      (if nt s then ret false else consume_struct_name ename) ;;;
      skip_ws ;;;
      struct_after_name ename adjacent_body
  end.
End Adjacent.

(** ** Writing

    serde's code: a struct with the tag, as a unit variant, and the content *)
Definition as_adjacent (tag content : str) (v : val) : option val :=
  match v with
  | VUnitVariant n k => Some (VStruct n [(tag, VUnitVariant n k)])
  | VNewVariant n k v => Some (VStruct n [(tag, VUnitVariant n k); (content, v)])
  | VTupVariant n k l => Some (VStruct n [(tag, VUnitVariant n k); (content, VTuple l)])
  | VStructVariant n k fs => Some (VStruct n [(tag, VUnitVariant n k); (content, VStruct k fs)])
  | _ => None
  end.
