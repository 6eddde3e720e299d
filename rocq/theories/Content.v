(** Model of reading into serde's buffer: what the deserializer does for
    untagged enums (and the other types for which serde first collects the
    input into its private type Content).

    A buffered value is a [value]: serde's Content has the same constructors.
    (It has more for strings and numbers that are borrowed or of another width;
    it has none for 128-bit integers, for which its visitor has no method.) *)
From Coq Require Import NArith ZArith Bool List.
From Verif Require Import Base Value Data Parse De IntoRust.
Import ListNotations.
Open Scope N_scope.
Open Scope list_scope.
Open Scope m_scope.

Section Content.
Context {E : Env}.

(** a 128-bit integer, or a range with one *)
Definition wide_num (x : value) : bool := match x with XNum (NInt k _) => is_128 k | _ => false end.
Definition wide (x : value) : bool :=
  match x with XMap es => existsb (fun kv => wide_num (snd kv)) es | _ => wide_num x end.

Section Rec.
(** The recursive call; the argument is [serde_content_newtype]
    (de/mod.rs:36-42), which is set while the value of a variant is read. *)
Variable con : bool -> M value.

(** handle_any_struct (de/mod.rs:174-234) for serde's Content, and
    SerdeEnumContent (de/mod.rs:1297-1326) *)
Definition content_struct (newtype : bool) (ident : option str) : M value :=
  t <- check_struct_type true newtype ;;
  match t, ident with
  | SUnit, Some id => ret (XStr id)
  | SUnit, None => ret XUnit
  | _, Some id => skip_ws ;;; v <- con true ;; ret (XMap [(XStr id, v)])
  | Named, None => struct_after_name [] (l <- map_all c_rp (k <- de_identifier ;; ret (XStr k)) (con false) ;;
                                         ret (XMap l))
  | NewtypeTuple, None =>
      if newtype then
        consume_char c_lp ;;;
        skip_ws ;;;
        (* whether there is a closing parenthesis is not looked at *)
        try (con false) (fun v => skip_ws ;;; consume_char c_rp ;;; ret v)
                        (fun e => skip_ws ;;; consume_char c_rp ;;; fail e)
      else de_tuple (l <- seq_all c_rp (con false) ;; ret (XSeq l))
  | _, None => de_tuple (l <- seq_all c_rp (con false) ;; ret (XSeq l))
  end.

(** deserialize_any after the newtype_variant prologue (de/mod.rs:351-423) *)
Definition content_tree (newtype : bool) : M value :=
  b <- consume_ident s_true ;;
  if b then ret (XBool true) else
  b <- consume_ident s_false ;;
  if b then ret (XBool false) else
  b <- check_ident s_Some ;;
  if b then de_option XNone (v <- con false ;; ret (XSome v)) else
  b <- consume_ident s_None ;;
  if b then ret XNone else
  b <- consume_str s_unit ;;
  if b then ret XUnit else
  b <- consume_ident s_inf ;;
  b <- (if b then ret true else consume_ident s_inff32) ;;
  if b then float_range_or_value (NFloat F32 (f_inf F32)) else
  b <- consume_ident s_inff64 ;;
  if b then float_range_or_value (NFloat F64 (f_inf F64)) else
  b <- consume_ident s_NaN ;;
  b <- (if b then ret true else consume_ident s_NaNf32) ;;
  if b then float_range_or_value (NFloat F32 (f_nan F32)) else
  b <- consume_ident s_NaNf64 ;;
  if b then float_range_or_value (NFloat F64 (f_nan F64)) else
  id <- skip_identifier ;;
  match id with
  | Some id => skip_ws ;;; content_struct newtype (Some id)
  | None =>
      c <- peek_char_or_eof ;;
      if c =? c_lp then content_struct newtype None
      else if c =? c_lb then de_seq (l <- seq_all c_rb (con false) ;; ret (XSeq l))
      else if c =? c_lc then de_map (l <- map_all c_rc (con false) (con false) ;; ret (XMap l))
      else if is_digit c || (c =? c_plus) || (c =? c_minus) || (c =? c_dot) || (c =? c_b)
      then any_number_or_bytes
      else if (c =? c_dq) || (c =? c_r) then (s <- parse_string ;; ret (XStr s))
      else if c =? c_sq then (c <- parse_char ;; ret (XChar c))
      else fail (EUnexpectedChar c)
  end.
(** Content's visitor refuses a 128-bit integer right after it has been read.
    The entries of a map have been through here already, except for ranges. *)
Definition content_main (newtype : bool) : M value :=
  x <- content_tree newtype ;;
  if wide x then fail EInvalidValueForType else ret x.
End Rec.

(** deserialize_any (de/mod.rs:313-424) for Content *)
Fixpoint de_content (fuel : nat) (newtype : bool) : M value :=
  match fuel with
  | O => oof
  | S f =>
      s <- get ;;
      if nt s then
        rp <- check_char c_rp ;;
        if rp then de_unit ;;; ret XUnit
        else
          t <- check_struct_type false true ;;
          match t with
          | Named => struct_after_name [] (l <- map_all c_rp (k <- de_identifier ;; ret (XStr k)) (de_content f false) ;;
                                           ret (XMap l))
          | EmptyTuple | NonNewtypeTuple =>
              de_tuple (l <- seq_all c_rp (de_content f false) ;; ret (XSeq l))
          | _ => modify (set_nt false) ;;; content_main (de_content f) newtype
          end
      else content_main (de_content f) newtype
  end.
(** with enough fuel for the text at hand, as [any_value] *)
Definition content_value : M value :=
  r <- src ;;
  de_content (2 * length r + 3) false.
End Content.

(** ** From the buffer to the type

    serde's ContentRefDeserializer, driven by the visitors of the standard
    types and of derived Deserialize implementations.  This is serde's code,
    not ron's. *)
Section Of.
Context {E : Env}.
Variable tenv : nat -> ty.
Open Scope cv_scope.

(** identifiers of fields and variants: strings, bytes, and indices of type u8
    or u64 *)
Definition ident_key (k : value) : bool :=
  match k with XStr _ | XBytes _ | XNum (NInt (U8 | U64) _) => true | _ => false end.
Definition find_variant (variants : list (str * vty)) (k : value) : conv (str * vty) :=
  let known (p : str -> bool) (e : err) :=
    match find (fun v => p (fst v)) variants with Some v => CVal v | None => CErr e end in
  match k with
  | XStr s => known (str_eqb s) (ENoSuchEnumVariant s None)
  | XBytes b => known (fun f => str_eqb b (enc f)) (ENoSuchEnumVariant (match from_utf8 b with Some s => s | None => [] end) None)
  | XNum (NInt (U8 | U64) z) =>
      match nth_error variants (Z.to_nat z) with Some v => CVal v | None => CErr EInvalidValueForType end
  | _ => CErr EInvalidValueForType
  end.

Section Rec.
Variable rec : ty -> value -> conv val.

(** all elements must be asked for *)
Definition exact_elems (fs : list (value -> conv val)) (l : list value) : conv (list val) :=
  p <~ take_elems fs 0 l ;;
  if is_nil (snd p) then CVal (fst p) else CErr (EExpectedDifferentLength (length l)).
Definition content_fields (deny : bool) (fields : list (str * ty)) (es : list (value * value)) : conv (list (str * val)) :=
  if forallb (fun kv => ident_key (fst kv)) es then
    acc <~ struct_entries rec deny fields [] es ;;
    fill tenv fields acc
  else CErr EInvalidValueForType.
Definition content_struct_of (deny : bool) (fields : list (str * ty)) (x : value) : conv (list (str * val)) :=
  match x with
  | XSeq l => vs <~ exact_elems (map (fun ft => rec (snd ft)) fields) l ;; CVal (combine (map fst fields) vs)
  | XMap es => content_fields deny fields es
  | _ => CErr EInvalidValueForType
  end.
Definition content_step (t : ty) (x : value) : conv val :=
  match t with
  | TBool => match x with XBool b => CVal (VBool b) | _ => CErr EInvalidValueForType end
  | TInt k =>
      if is_128 k then CErr EMessage
      else match x with
           | XNum n => match num_into n t with Some v => CVal v | None => CErr EInvalidValueForType end
           | _ => CErr EInvalidValueForType
           end
  | TFloat k =>
      match x with
      | XNum n => match num_into n t with Some v => CVal v | None => CErr EInvalidValueForType end
      | _ => CErr EInvalidValueForType
      end
  | TChar => match x with XChar c | XStr [c] => CVal (VChar c) | _ => CErr EInvalidValueForType end
  | TStr =>
      match x with
      | XStr s => CVal (VStr s)
      | XBytes b => match from_utf8 b with Some s => CVal (VStr s) | None => CErr EInvalidValueForType end
      | _ => CErr EInvalidValueForType
      end
  | TBytes =>
      match x with
      | XBytes b => CVal (VBytes b)
      | XStr s => CVal (VBytes (enc s))
      | XSeq l => bs <~ all_elems into_byte l ;; CVal (VBytes bs)
      | _ => CErr EInvalidValueForType
      end
  | TUnit => match x with XUnit => CVal VUnit | _ => CErr EInvalidValueForType end
  | TUnitStruct name => match x with XUnit => CVal (VUnitStruct name) | _ => CErr EInvalidValueForType end
  | TOption t =>
      match x with
      | XNone | XUnit => CVal VNone
      | XSome x => v <~ rec t x ;; CVal (VSome v)
      | _ => v <~ rec t x ;; CVal (VSome v)
      end
  | TNewtype name t => v <~ rec t x ;; CVal (VNewtype name v)
  | TSeq t => match x with XSeq l => vs <~ all_elems (rec t) l ;; CVal (VSeq vs) | _ => CErr EInvalidValueForType end
  | TTuple ts => match x with XSeq l => vs <~ exact_elems (map rec ts) l ;; CVal (VTuple vs) | _ => CErr EInvalidValueForType end
  | TTupleStruct name ts =>
      match x with XSeq l => vs <~ exact_elems (map rec ts) l ;; CVal (VTupleStruct name vs) | _ => CErr EInvalidValueForType end
  | TMap kt vt =>
      match x with XMap es => l <~ all_entries (rec kt) (rec vt) es ;; CVal (VMap l) | _ => CErr EInvalidValueForType end
  | TStruct deny name fields => fs <~ content_struct_of deny fields x ;; CVal (VStruct name fs)
  | TEnum name variants =>
      match x with
      | XStr _ =>
          p <~ find_variant variants x ;;
          match snd p with WUnit => CVal (VUnitVariant name (fst p)) | _ => CErr EInvalidValueForType end
      | XMap [(k, y)] =>
          p <~ find_variant variants k ;;
          match snd p with
          | WUnit => _ <~ rec TUnit y ;; CVal (VUnitVariant name (fst p))
          | WNew t => v <~ rec t y ;; CVal (VNewVariant name (fst p) v)
          | WTup ts =>
              match y with XSeq l => vs <~ exact_elems (map rec ts) l ;; CVal (VTupVariant name (fst p) vs) | _ => CErr EInvalidValueForType end
          | WStruct deny fields => fs <~ content_struct_of deny fields y ;; CVal (VStructVariant name (fst p) fs)
          end
      | _ => CErr EInvalidValueForType
      end
  | TAny => CVal (embed (norm x))
  | TIgnored => CVal VIgnored
  (* raw values are not supported (README.md:181-220); named types are looked
     up by [of_content] *)
  | TRaw | TRef _ => CErr EMessage
  end.
End Rec.
Fixpoint of_content (fuel : nat) (t : ty) (x : value) : conv val :=
  match fuel with
  | O => CFuel
  | S f => match t with TRef n => of_content f (tenv n) x | _ => content_step (of_content f) t x end
  end.

(** ** Untagged enums

    The variants are tried in turn.  An untagged enum is written as the
    contents of its variant, so what is read is a variant and its contents; for
    a unit variant, [VUnit]. *)
Inductive uvariant := UUnit | UNew (t : ty) | UTup (ts : list ty) | UStruct (name : str) (deny : bool) (fields : list (str * ty)).
Definition as_variant (fuel : nat) (u : uvariant) (x : value) : conv val :=
  match u with
  | UUnit => match x with XUnit | XNone => CVal VUnit | _ => CErr EInvalidValueForType end
  | UNew t => of_content fuel t x
  | UTup ts => of_content fuel (TTuple ts) x
  | UStruct name deny fields => match x with XMap _ => of_content fuel (TStruct deny name fields) x | _ => CErr EInvalidValueForType end
  end.
Fixpoint first_variant (fuel : nat) (i : nat) (us : list uvariant) (x : value) : conv (nat * val) :=
  match us with
  | [] => CErr EMessage
  | u :: us' =>
      match as_variant fuel u x with
      | CVal v => CVal (i, v)
      | CErr _ => first_variant fuel (S i) us' x
      | CFuel => CFuel
      end
  end.
Definition de_untagged (fuel : nat) (us : list uvariant) : M (nat * val) :=
  (x <- content_value ;;
   match first_variant fuel 0 us x with CVal p => ret p | CErr e => fail e | CFuel => oof end).
End Of.
