(** Model of the deserializer, de/mod.rs. *)
From Coq Require Import String Ascii NArith ZArith Bool List.
From Verif Require Import Base Value Data Parse.
Import ListNotations.
Open Scope N_scope.
Open Scope list_scope.
Open Scope m_scope.

Definition s_start := Eval vm_compute in lit "start".
Definition s_end := Eval vm_compute in lit "end".
Definition s_last := Eval vm_compute in lit "last".
Definition s_Range := Eval vm_compute in lit "Range".
Definition s_RangeInclusive := Eval vm_compute in lit "RangeInclusive".
Definition s_RangeFrom := Eval vm_compute in lit "RangeFrom".
Definition s_RangeTo := Eval vm_compute in lit "RangeTo".
Definition s_RangeToInclusive := Eval vm_compute in lit "RangeToInclusive".
Definition s_RangeFull := Eval vm_compute in lit "RangeFull".

(** Options (options.rs:31-48) and their default *)
Record opts := Opts { o_exts : exts; o_limit : option nat }.
Definition opts_default : opts := Opts exts_empty (Some 128%nat).

Definition is_nil {A} (l : list A) : bool := match l with [] => true | _ => false end.

Fixpoint strs_eqb (a b : list str) : bool :=
  match a, b with
  | [], [] => true
  | x :: a', y :: b' => str_eqb x y && strs_eqb a' b'
  | _, _ => false
  end.

(** slice::iter().find on field or variant names *)
Fixpoint assoc {A} (k : str) (l : list (str * A)) : option A :=
  match l with
  | [] => None
  | (k', a) :: l' => if str_eqb k k' then Some a else assoc k l'
  end.

(** ** guard_recursion! (de/mod.rs:136-154)

    [guard] is the macro around an expression ending in [?] (on an error the
    limit is not restored), [guard_r] around a plain Result.  Saturation of
    [saturating_add] is not modelled: the limit was decremented before. *)
Definition guard_with {A} (restore : bool) (m : M A) : M A := fun s =>
  match lim s with
  | None => m s
  | Some O => Err EExceededRecursionLimit s
  | Some (S l) =>
      match m (set_lim (Some l) s) with
      | Ok a s' => Ok a (set_lim (option_map S (lim s')) s')
      | Err e s' => Err e (if restore then set_lim (option_map S (lim s')) s' else s')
      | Panic => Panic
      | OutOfFuel => OutOfFuel
      end
  end.
Definition guard {A} (m : M A) : M A := guard_with false m.
Definition guard_r {A} (m : M A) : M A := guard_with true m.

(** struct_error_name (de/mod.rs:1273-1296) *)
Definition struct_error_name (name : option str) (e : err) : err :=
  match e with
  | ENoSuchStructField f None => ENoSuchStructField f name
  | EMissingStructField f None => EMissingStructField f name
  | EDuplicateStructField f None => EDuplicateStructField f name
  | _ => e
  end.

(** the label of deserialize_enum (de/mod.rs:887-899) *)
Definition enum_error_name (name : str) (e : err) : err :=
  match e with
  | ENoSuchEnumVariant f None =>
      if is_nil name then e else ENoSuchEnumVariant f (Some name)
  | _ => e
  end.

Section WithEnv.
Context {E : Env}.

(** ** CommaSeparated (de/mod.rs:939-977, 1109-1178) *)

Definition has_element (term : char) (had_comma : bool) : M bool :=
  skip_ws ;;;
  t <- check_char term ;;
  if had_comma then ret (negb t)
  else if t then ret false else fail EExpectedComma.

(** SeqAccess::next_element_seed *)
Definition next_element {A} (term : char) (elem : M A) (had : bool)
  : M (option A * bool) :=
  h <- has_element term had ;;
  if h then
    v <- guard elem ;;
    c <- comma ;;
    ret (Some v, c)
  else ret (None, had).

(** the visitor loop [while let Some(x) = seq.next_element()?] of Vec,
    ValueVisitor (de/value.rs:204-219) and IgnoredAny *)
Fixpoint seq_loop {A} (n : nat) (term : char) (elem : M A) (had : bool) : M (list A) :=
  match n with
  | O => oof
  | S n' =>
      p <- next_element term elem had ;;
      match p with
      | (None, _) => ret []
      | (Some a, c) => l <- seq_loop n' term elem c ;; ret (a :: l)
      end
  end.

(** every further round needs a comma, so the length of the text bounds them *)
Definition seq_all {A} (term : char) (elem : M A) : M (list A) :=
  r <- src ;; seq_loop (2 + length r) term elem true.

(** serde's tuple and derived tuple struct visitors: one element per field,
    invalid_length(i) if there are too few *)
Fixpoint tuple_elems {A} (elems : list (M A)) (i : nat) (had : bool) : M (list A) :=
  match elems with
  | [] => ret []
  | m :: ms =>
      p <- next_element c_rp m had ;;
      match p with
      | (None, _) => fail (EExpectedDifferentLength i)
      | (Some a, c) => l <- tuple_elems ms (S i) c ;; ret (a :: l)
      end
  end.

(** MapAccess::next_key_seed / next_value_seed *)
Definition next_key {A} (term : char) (key : M A) (had : bool) : M (option A) :=
  h <- has_element term had ;;
  if h then (k <- guard_r key ;; ret (Some k)) else ret None.
Definition next_value {A} (value : M A) : M (A * bool) :=
  skip_ws ;;;
  b <- consume_char c_colon ;;
  if b then
    skip_ws ;;;
    v <- guard value ;;
    c <- comma ;;
    ret (v, c)
  else fail EExpectedMapColon.

(** [while let Some((k, v)) = map.next_entry()?] *)
Fixpoint map_loop {A B} (n : nat) (term : char) (key : M A) (value : M B) (had : bool)
  : M (list (A * B)) :=
  match n with
  | O => oof
  | S n' =>
      k <- next_key term key had ;;
      match k with
      | None => ret []
      | Some k =>
          p <- next_value value ;;
          l <- map_loop n' term key value (snd p) ;;
          ret ((k, fst p) :: l)
      end
  end.
Definition map_all {A B} (term : char) (key : M A) (value : M B) : M (list (A * B)) :=
  r <- src ;; map_loop (2 + length r) term key value true.

(** deserialize_identifier (de/mod.rs:902-911); as struct key it is reached
    through id::Deserializer (de/id.rs:19-50) *)
Definition de_identifier : M str :=
  id <- identifier ;;
  modify (set_last_id (Some id)) ;;;
  ret id.

(** ** Brackets *)

(** deserialize_seq (de/mod.rs:668-688), [body] being the visitor *)
Definition de_seq {A} (body : M A) : M A :=
  modify (set_nt false) ;;;
  b <- consume_char c_lb ;;
  if b then
    v <- guard body ;;
    skip_ws ;;;
    c <- consume_char c_rb ;;
    if c then ret v else fail EExpectedArrayEnd
  else fail EExpectedArray.

(** deserialize_tuple (de/mod.rs:690-711) *)
Definition de_tuple {A} (body : M A) : M A :=
  s <- get ;;
  b <- (if nt s then ret true else consume_char c_lp) ;;
  if b then
    modify (set_nt false) ;;;
    v <- guard body ;;
    skip_ws ;;;
    c <- (if nt s then ret true else consume_char c_rp) ;;
    if c then ret v else fail EExpectedStructLikeEnd
  else fail EExpectedStructLike.

(** deserialize_map (de/mod.rs:732-770); the serde-flatten canary concerns
    visitors of flattened structs, which are not modelled *)
Definition de_map {A} (body : M A) : M A :=
  modify (set_nt false) ;;;
  b <- consume_char c_lc ;;
  if b then
    v <- guard body ;;
    skip_ws ;;;
    c <- consume_char c_rc ;;
    if c then ret v else fail EExpectedMapEnd
  else fail EExpectedMap.

(** handle_struct_after_name (de/mod.rs:268-308) *)
Definition struct_after_name {A} (name : str) (body : M A) : M A :=
  s <- get ;;
  b <- (if nt s then ret true else consume_char c_lp) ;;
  if b then
    modify (set_nt false) ;;;
    v <- guard (map_err (struct_error_name
                 (if negb (nt s) && negb (is_nil name) then Some name else None)) body) ;;
    skip_ws ;;;
    c <- (if nt s then ret true else consume_char c_rp) ;;
    if c then ret v else fail EExpectedStructLikeEnd
  else match name with
       | [] => fail EExpectedStructLike
       | _ => fail (EExpectedNamedStructLike name)
       end.

(** deserialize_option (de/mod.rs:553-586) *)
Definition de_option {A} (none : A) (some : M A) : M A :=
  n <- consume_ident s_None ;;
  if n then ret none
  else
    sm <- consume_ident s_Some ;;
    op <- (if sm then skip_ws ;;; consume_char c_lp else ret false) ;;
    if op then
      skip_ws ;;;
      modify (fun s => set_nt (x_unwrap_variant_newtypes (ext s)) s) ;;;
      v <- guard some ;;
      modify (set_nt false) ;;;
      comma ;;;
      c <- consume_char c_rp ;;
      if c then ret v else fail EExpectedOptionEnd
    else
      s <- get ;;
      if x_implicit_some (ext s) then guard_r some else fail EExpectedOption.

(** deserialize_unit (de/mod.rs:589-600) *)
Definition de_unit : M unit :=
  s <- get ;;
  b <- (if nt s then ret true else consume_str s_unit) ;;
  if b then modify (set_nt false) else fail EExpectedUnit.

(** deserialize_unit_struct (de/mod.rs:602-617) *)
Definition de_unit_struct (name : str) : M unit :=
  full <- (if str_eqb name s_RangeFull then consume_str s_dotdot else ret false) ;;
  if full then ret tt
  else
    s <- get ;;
    b <- (if nt s then ret true else consume_struct_name name) ;;
    if b then modify (set_nt false) else de_unit.

(** deserialize_newtype_struct without the raw value branch
    (de/mod.rs:641-665) *)
Definition de_newtype {A} (name : str) (inner : M A) : M A :=
  s <- get ;;
  if x_unwrap_newtypes (ext s) || nt s then
    modify (set_nt false) ;;;
    guard_r inner
  else
    consume_struct_name name ;;;
    skip_ws ;;;
    b <- consume_char c_lp ;;
    if b then
      skip_ws ;;;
      v <- guard inner ;;
      comma ;;;
      c <- consume_char c_rp ;;
      if c then ret v else fail EExpectedStructLikeEnd
    else match name with
         | [] => fail EExpectedStructLike
         | _ => fail (EExpectedNamedStructLike name)
         end.

(** ** deserialize_any

    The visitor is fixed to the two used with it in the repository,
    ValueVisitor and IgnoredAny; both drive the deserializer in the same way.
    The result lists map entries in document order, see [norm].
    serde's [Content] visitor is treated in Content.v, that of internally
    tagged enums (de/mod.rs:178-180, de/tag.rs) in Tagged.v. *)

Definition num_start (r : str) : bool :=
  match r with [] => false | c :: _ => is_number_start c r end.

(** handle_float_range_or_value (de/mod.rs:236-260) *)
Definition range_entries (l : list (str * num)) : value :=
  XMap (map (fun p => (XStr (fst p), XNum (snd p))) l).
Definition float_range_or_value (n : num) : M value :=
  i <- consume_str s_dotdoteq ;;
  if i then
    e <- any_number ;; ret (range_entries [(s_start, n); (s_end, e)])
  else
    d <- consume_str s_dotdot ;;
    if d then
      r <- src ;;
      if num_start r then
        e <- any_number ;; ret (range_entries [(s_start, n); (s_end, e)])
      else ret (range_entries [(s_start, n)])
    else ret (XNum n).

(** deserialize_byte_buf (de/mod.rs:538-551) *)
Definition de_bytes : M bytes :=
  b <- check_char c_lb ;;
  if b then
    l <- de_seq (seq_all c_rb (p <- integer (Some U8) ;; ret (Z.to_N (snd p)))) ;;
    ret l
  else byte_string.

(** the numbers branch of deserialize_any (de/mod.rs:382-407) *)
Definition any_number_or_bytes : M value :=
  r <- src ;;
  if starts_with [c_b] r && negb (starts_with s_bsq r) then
    b <- de_bytes ;; ret (XBytes b)
  else
    i <- check_str s_dotdoteq ;;
    if i then
      consume_str s_dotdoteq ;;;
      e <- any_number ;; ret (range_entries [(s_end, e)])
    else
      d <- check_str s_dotdot ;;
      if d then
        after <- of_slice (bdrop 2 r) ;;
        (* [is_number_start] looks at the cursor, which is still on the dots *)
        if (match after with [] => false | c :: _ => is_number_start c r end) then
          consume_str s_dotdot ;;;
          e <- any_number ;; ret (range_entries [(s_end, e)])
        else
          consume_str s_dotdot ;;; ret XUnit
      else
        n <- any_number ;; float_range_or_value n.

(** deserialize_any after the newtype_variant prologue (de/mod.rs:347-412);
    [any] is the recursive call *)
Definition any_main (any : M value) : M value :=
  let any_struct : M value :=
    (* handle_any_struct (de/mod.rs:174-234) *)
    t <- check_struct_type true false ;;
    match t with
    | SUnit => ret XUnit
    | Named => struct_after_name [] (l <- map_all c_rp (k <- de_identifier ;; ret (XStr k)) any ;;
                                     ret (XMap l))
    | _ => de_tuple (l <- seq_all c_rp any ;; ret (XSeq l))
    end in
  b <- consume_ident s_true ;;
  if b then ret (XBool true) else
  b <- consume_ident s_false ;;
  if b then ret (XBool false) else
  b <- check_ident s_Some ;;
  if b then de_option XNone (v <- any ;; ret (XSome v)) else
  b <- consume_ident s_None ;;
  if b then ret XNone else
  b <- consume_str s_unit ;;
  if b then ret XUnit else
  b <- consume_ident s_inf ;;
  b <- (if b then ret true else consume_ident s_inff32) ;;
  if b then float_range_or_value (NFloat F32 (f_inf F32)) else
  b <- consume_ident s_inff64 ;;
  if b then float_range_or_value (NFloat F64 (f_inf F64)) else
  b <- consume_ident s_NaN ;;
  b <- (if b then ret true else consume_ident s_NaNf32) ;;
  if b then float_range_or_value (NFloat F32 (f_nan F32)) else
  b <- consume_ident s_NaNf64 ;;
  if b then float_range_or_value (NFloat F64 (f_nan F64)) else
  id <- skip_identifier ;;
  match id with
  | Some _ => skip_ws ;;; any_struct
  | None =>
      c <- peek_char_or_eof ;;
      if c =? c_lp then any_struct
      else if c =? c_lb then de_seq (l <- seq_all c_rb any ;; ret (XSeq l))
      else if c =? c_lc then de_map (l <- map_all c_rc any any ;; ret (XMap l))
      else if is_digit c || (c =? c_plus) || (c =? c_minus) || (c =? c_dot) || (c =? c_b)
      then any_number_or_bytes
      else if (c =? c_dq) || (c =? c_r) then (s <- parse_string ;; ret (XStr s))
      else if c =? c_sq then (c <- parse_char ;; ret (XChar c))
      else fail (EUnexpectedChar c)
  end.

(** deserialize_any (de/mod.rs:313-412) *)
Fixpoint de_any (fuel : nat) : M value :=
  match fuel with
  | O => oof
  | S f =>
      s <- get ;;
      if nt s then
        rp <- check_char c_rp ;;
        if rp then de_unit ;;; ret XUnit
        else
          t <- check_struct_type false true ;;
          match t with
          | Named => struct_after_name [] (l <- map_all c_rp (k <- de_identifier ;; ret (XStr k)) (de_any f) ;;
                                           ret (XMap l))
          | EmptyTuple | NonNewtypeTuple =>
              de_tuple (l <- seq_all c_rp (de_any f) ;; ret (XSeq l))
          | _ => modify (set_nt false) ;;; any_main (de_any f)
          end
      else any_main (de_any f)
  end.

(** with enough fuel for the text at hand: every level but a newtype variant
    consumes a character *)
Definition any_value : M value :=
  r <- src ;; de_any (2 * length r + 3).

(** ** Documents *)

(** end (de/mod.rs:159-167) *)
Definition de_end : M unit :=
  skip_ws ;;;
  r <- src ;;
  match r with [] => ret tt | _ => fail ETrailingCharacters end.

(** from_str_with_options (de/mod.rs:55-67) then from_str_seed
    (options.rs:170-184); the error carries the state its span is made of *)
Definition document {A} (o : opts) (m : M A) : M A :=
  parser_new ;;;
  modify (fun s => set_lim (o_limit o) (set_ext (exts_or (ext s) (o_exts o)) s)) ;;;
  v <- m ;;
  de_end ;;;
  ret v.
Definition from_str {A} (o : opts) (m : M A) (text : str) : out A :=
  document o m (init_state text).

(** the raw value branch of deserialize_newtype_struct (de/mod.rs:623-638) with
    the visitors of value/raw.rs:175-242 *)
Definition de_raw : M str :=
  before <- pre_ws_src ;;
  skip_ws ;;;
  any_value ;;;
  skip_ws ;;;
  after <- src ;;
  u <- has_unclosed_line_comment ;;
  if u then fail EUnclosedLineComment
  else
    ron <- slice_before before after ;;
    match from_str opts_default any_value ron with
    | Ok _ _ => ret ron
    | Err _ _ => fail EExpectedRawValue
    | Panic => panic
    | OutOfFuel => oof
    end.

(** ** Typed deserialization *)

(** NumberDeserializer (value/number.rs:541-558) into serde's visitors: the
    integer and float visitors of serde's primitives, a Value, or anything
    for IgnoredAny; every other visitor reports an invalid type.  serde's
    128-bit visit methods exist only on the 128-bit visitors. *)
Definition num_into (n : num) (t : ty) : option val :=
  match t, n with
  | TInt k, NInt k' z =>
      if (negb (is_128 k') || is_128 k) && in_range k z then Some (VInt k z) else None
  | TFloat k, NInt k' z => if is_128 k' then None else Some (VFloat k (f_of_int k z))
  | TFloat k, NFloat k' b =>
      Some (VFloat k (match k, k' with
                      | F32, F64 => f_narrow b
                      | F64, F32 => f_widen b
                      | _, _ => b
                      end))
  | TAny, n => Some (embed_num n)
  | TIgnored, _ => Some VIgnored
  | _, _ => None
  end.

(** the range prologue of deserialize_struct (de/mod.rs:781-863): the numbers
    to be visited as a map, or [None] to go on as a struct.  [fields] are the
    field names. *)
Definition range_prologue (name : str) (fields : list str) : M (option (list num)) :=
  r <- src ;;
  let ns := num_start r in
  if ((str_eqb name s_Range && strs_eqb fields [s_start; s_end])
      || (str_eqb name s_RangeInclusive
          && (strs_eqb fields [s_start; s_end] || strs_eqb fields [s_start; s_last])))
     && ns
  then
    a <- any_number ;;
    i <- consume_str s_dotdoteq ;;
    d <- (if i then ret true else consume_str s_dotdot) ;;
    if negb d then fail EExpectedRangeSyntax
    else if i && str_eqb name s_Range then fail EMessage
    else if negb i && str_eqb name s_RangeInclusive then fail EMessage
    else
      b <- any_number ;; ret (Some [a; b])
  else
    sp <- (if strs_eqb fields [s_start] && str_eqb name s_RangeFrom && negb (is_nil r) then
             if ns then ret true else
             b <- check_ident s_inf ;; if b then ret true else
             b <- check_ident s_inff32 ;; if b then ret true else
             b <- check_ident s_inff64 ;; if b then ret true else
             b <- check_ident s_NaN ;; if b then ret true else
             b <- check_ident s_NaNf32 ;; if b then ret true else
             check_ident s_NaNf64
           else ret false) ;;
    if sp then
      a <- any_number ;;
      i <- consume_str s_dotdoteq ;;
      if i then fail EMessage
      else
        d <- consume_str s_dotdot ;;
        if d then ret (Some [a]) else fail EExpectedRangeSyntax
    else if strs_eqb fields [s_end] && str_eqb name s_RangeTo
            && (starts_with s_dotdoteq r || starts_with s_dotdot r) then
      i <- consume_str s_dotdoteq ;;
      if i then fail EMessage
      else
        consume_str s_dotdot ;;;
        a <- any_number ;; ret (Some [a])
    else if (strs_eqb fields [s_end] || strs_eqb fields [s_last])
            && str_eqb name s_RangeToInclusive
            && (starts_with s_dotdoteq r || starts_with s_dotdot r) then
      i <- consume_str s_dotdoteq ;;
      if negb i then consume_str s_dotdot ;;; fail EMessage
      else
        a <- any_number ;; ret (Some [a])
    else ret None.

(** a struct visitor fed by RangeMapAccess and friends (de/mod.rs:981-1107):
    the keys are exactly the fields, in order *)
Fixpoint range_fields (fields : list (str * ty)) (ns : list num) : option (list (str * val)) :=
  match fields, ns with
  | [], [] => Some []
  | (f, t) :: fs, n :: ns' =>
      match num_into n t, range_fields fs ns' with
      | Some v, Some l => Some ((f, v) :: l)
      | _, _ => None
      end
  | _, _ => None
  end.

(** One step of a derived struct visitor's visit_map loop per entry, keeping
    the fields read so far: unknown fields are an error or ignored, repeated
    fields an error. *)
Section StructLoop.
  Variable value_of : ty -> M val.
  Variable deny : bool.
  Variable fields : list (str * ty).

  (** the derived field identifier: unknown names fail while the key is read *)
  Definition field_key : M str :=
    k <- de_identifier ;;
    match assoc k fields with
    | Some _ => ret k
    | None => if deny then fail (ENoSuchStructField k None) else ret k
    end.

  Fixpoint struct_loop (n : nat) (acc : list (str * val)) (had : bool) : M (list (str * val)) :=
    match n with
    | O => oof
    | S n' =>
        k <- next_key c_rp field_key had ;;
        match k with
        | None => ret acc
        | Some k =>
            match assoc k fields with
            | Some t =>
                match assoc k acc with
                | Some _ => fail (EDuplicateStructField k None)
                | None =>
                    p <- next_value (value_of t) ;;
                    struct_loop n' ((k, fst p) :: acc) (snd p)
                end
            | None =>
                p <- next_value any_value ;;
                struct_loop n' acc (snd p)
            end
        end
    end.

  (** is [t] an Option, for which serde's missing_field yields None? *)
  Variable is_option : ty -> bool.

  Fixpoint collect (fs : list (str * ty)) (acc : list (str * val)) : M (list (str * val)) :=
    match fs with
    | [] => ret []
    | (f, t) :: fs' =>
        v <- (match assoc f acc with
              | Some v => ret v
              | None => if is_option t then ret VNone else fail (EMissingStructField f None)
              end) ;;
        l <- collect fs' acc ;;
        ret ((f, v) :: l)
    end.

  Definition struct_body : M (list (str * val)) :=
    r <- src ;;
    acc <- struct_loop (2 + length r) [] true ;;
    collect fields acc.
End StructLoop.

Section Typed.
(** the table of named types *)
Variable tenv : nat -> ty.

Definition resolve (t : ty) : ty := match t with TRef n => tenv n | _ => t end.
Definition is_option (t : ty) : bool :=
  match resolve t with TOption _ => true | _ => false end.

(** [T::deserialize(&mut deserializer)] for each shape of [T]; [rec] is the
    recursive call *)
Definition de_step (rec : ty -> M val) (t : ty) : M val :=
  match t with
  (* de/mod.rs:414-551 *)
  | TBool => b <- parse_bool ;; ret (VBool b)
  | TInt k => if int_supported k then (p <- integer (Some k) ;; ret (VInt k (snd p)))
              else fail EMessage
  | TFloat k => p <- float (Some k) ;; ret (VFloat k (snd p))
  | TChar => c <- parse_char ;; ret (VChar c)
  | TStr => s <- parse_string ;; ret (VStr s)
  | TBytes => b <- de_bytes ;; ret (VBytes b)
  | TUnit => de_unit ;;; ret VUnit
  | TUnitStruct name => de_unit_struct name ;;; ret (VUnitStruct name)
  | TOption t => de_option VNone (v <- rec t ;; ret (VSome v))
  | TNewtype name t => de_newtype name (v <- rec t ;; ret (VNewtype name v))
  | TSeq t => de_seq (l <- seq_all c_rb (rec t) ;; ret (VSeq l))
  | TTuple ts => de_tuple (l <- tuple_elems (map rec ts) 0 true ;; ret (VTuple l))
  | TTupleStruct name ts =>
      (* deserialize_tuple_struct (de/mod.rs:713-730) *)
      s <- get ;;
      (if nt s then ret false else consume_struct_name name) ;;;
      map_err (fun e => match e with
                        | EExpectedStructLike =>
                            if is_nil name then e else EExpectedNamedStructLike name
                        | _ => e
                        end)
        (de_tuple (l <- tuple_elems (map rec ts) 0 true ;;
                   ret (VTupleStruct name l)))
  | TMap kt vt => de_map (l <- map_all c_rc (rec kt) (rec vt) ;; ret (VMap l))
  | TStruct deny name fields =>
      (* deserialize_struct (de/mod.rs:772-874) *)
      r <- range_prologue name (map fst fields) ;;
      match r with
      | Some ns =>
          match range_fields (map (fun p => (fst p, resolve (snd p))) fields) ns with
          | Some l => ret (VStruct name l)
          | None => fail EInvalidValueForType
          end
      | None =>
          s <- get ;;
          (if nt s then ret false else consume_struct_name name) ;;;
          skip_ws ;;;
          struct_after_name name
            (l <- struct_body rec deny fields is_option ;; ret (VStruct name l))
      end
  | TEnum name variants =>
      (* deserialize_enum (de/mod.rs:876-900), Enum (de/mod.rs:1180-1271) *)
      modify (set_nt false) ;;;
      map_err (enum_error_name name)
        (guard_r
          (skip_ws ;;;
           id <- guard (k <- de_identifier ;;
                        match assoc k variants with
                        | Some w => ret (k, w)
                        | None => fail (ENoSuchEnumVariant k None)
                        end) ;;
           let '(k, w) := id in
           match w with
           | WUnit => ret (VUnitVariant name k)
           | WNew t =>
               (* newtype_variant_seed (de/mod.rs:1213-1248) *)
               s <- get ;;
               skip_ws ;;;
               b <- consume_char c_lp ;;
               if b then
                 skip_ws ;;;
                 modify (fun s => set_nt (x_unwrap_variant_newtypes (ext s)) s) ;;;
                 v <- guard (map_err (struct_error_name (last_id s)) (rec t)) ;;
                 modify (set_nt false) ;;;
                 comma ;;;
                 c <- consume_char c_rp ;;
                 if c then ret (VNewVariant name k v) else fail EExpectedStructLikeEnd
               else fail EExpectedStructLike
           | WTup ts =>
               (* tuple_variant (de/mod.rs:1250-1257) *)
               skip_ws ;;;
               de_tuple (l <- tuple_elems (map rec ts) 0 true ;;
                         ret (VTupVariant name k l))
           | WStruct deny fields =>
               (* struct_variant (de/mod.rs:1259-1270) *)
               s <- get ;;
               skip_ws ;;;
               map_err (struct_error_name (last_id s))
                 (struct_after_name []
                    (l <- struct_body rec deny fields is_option ;;
                     ret (VStructVariant name k l)))
           end))
  | TAny => x <- any_value ;; ret (embed (norm x))
  | TIgnored => any_value ;;; ret VIgnored
  | TRaw => s <- de_raw ;; ret (VRaw s)
  | TRef n => rec (tenv n)
  end.

(** [fuel] bounds the nesting of types *)
Fixpoint de_ty (fuel : nat) (t : ty) : M val :=
  match fuel with
  | O => oof
  | S f => de_step (de_ty f) t
  end.
End Typed.

End WithEnv.
