(** Text, bytes, UTF-8, outcomes and the parser state shared by all models.

    Citations of the form [parse.rs:151] refer to files below /repo/src. *)
From Coq Require Import String Ascii NArith ZArith Lia Bool List.
Import ListNotations.
Open Scope N_scope.
Open Scope list_scope.

(** ** Characters and text *)

(** A Rust [char] is a number; [is_scalar] delimits the legal ones.  A Rust
    [&str] is a list of characters; byte offsets are recovered with [blen]. *)
Definition char := N.
Definition str := list char.
Definition byte := N.
Definition bytes := list byte.

(** core::char: Unicode scalar values (0..=D7FF, E000..=10FFFF). *)
Definition is_scalar (c : char) : bool :=
  (c <? 55296) || ((57343 <? c) && (c <? 1114112)).

Definition wf_str (s : str) : Prop := Forall (fun c => is_scalar c = true) s.

(** core::char::len_utf8. *)
Definition len_utf8 (c : char) : nat :=
  if c <? 128 then 1%nat
  else if c <? 2048 then 2%nat
  else if c <? 65536 then 3%nat
  else 4%nat.

(** str::len, in bytes. *)
Fixpoint blen (s : str) : nat :=
  match s with
  | [] => 0%nat
  | c :: s' => (len_utf8 c + blen s')%nat
  end.

(** [&s[n..]]: [None] models the panic of slicing out of range or off a
    character boundary. *)
Fixpoint bdrop (n : nat) (s : str) {struct s} : option str :=
  match n with
  | O => Some s
  | _ => match s with
         | [] => None
         | c :: s' =>
             if Nat.leb (len_utf8 c) n then bdrop (n - len_utf8 c) s' else None
         end
  end.

(** [&s[..n]], same convention. *)
Fixpoint btake (n : nat) (s : str) {struct s} : option str :=
  match n with
  | O => Some []
  | _ => match s with
         | [] => None
         | c :: s' =>
             if Nat.leb (len_utf8 c) n
             then option_map (cons c) (btake (n - len_utf8 c) s')
             else None
         end
  end.

(** Longest prefix whose characters satisfy [p], and what is left. *)
Fixpoint takewhile (p : char -> bool) (s : str) : str :=
  match s with
  | [] => []
  | c :: s' => if p c then c :: takewhile p s' else []
  end.

Fixpoint dropwhile (p : char -> bool) (s : str) : str :=
  match s with
  | [] => []
  | c :: s' => if p c then dropwhile p s' else s
  end.

(** str::strip_prefix / starts_with. *)
Fixpoint strip_prefix (p s : str) : option str :=
  match p, s with
  | [], _ => Some s
  | a :: p', c :: s' => if a =? c then strip_prefix p' s' else None
  | _ :: _, [] => None
  end.

Definition starts_with (p s : str) : bool :=
  match strip_prefix p s with Some _ => true | None => false end.

Fixpoint str_eqb (a b : str) : bool :=
  match a, b with
  | [], [] => true
  | x :: a', y :: b' => (x =? y) && str_eqb a' b'
  | _, _ => false
  end.

(** str::find with a string needle, as a split: text before the first
    occurrence, and the text from the occurrence on. *)
Fixpoint find_str (p s : str) : option (str * str) :=
  if starts_with p s then Some ([], s)
  else match s with
       | [] => None
       | c :: s' => match find_str p s' with
                    | Some (a, b) => Some (c :: a, b)
                    | None => None
                    end
       end.

(** str::find with a character predicate. *)
Fixpoint find_char (p : char -> bool) (s : str) : option (str * str) :=
  match s with
  | [] => None
  | c :: s' => if p c then Some ([], s)
               else match find_char p s' with
                    | Some (a, b) => Some (c :: a, b)
                    | None => None
                    end
  end.

(** Literal text. *)
Fixpoint lit (s : string) : str :=
  match s with
  | EmptyString => []
  | String a s' => N_of_ascii a :: lit s'
  end.

(** ASCII characters used by the grammar. *)
Notation c_nul := 0 (only parsing).
Notation c_tab := 9 (only parsing).
Notation c_nl := 10 (only parsing).
Notation c_cr := 13 (only parsing).
Notation c_sp := 32 (only parsing).
Notation c_dq := 34 (only parsing).
Notation c_hash := 35 (only parsing).
Notation c_sq := 39 (only parsing).
Notation c_lp := 40 (only parsing).
Notation c_rp := 41 (only parsing).
Notation c_star := 42 (only parsing).
Notation c_plus := 43 (only parsing).
Notation c_comma := 44 (only parsing).
Notation c_minus := 45 (only parsing).
Notation c_dot := 46 (only parsing).
Notation c_slash := 47 (only parsing).
Notation c_0 := 48 (only parsing).
Notation c_9 := 57 (only parsing).
Notation c_colon := 58 (only parsing).
Notation c_eq := 61 (only parsing).
Notation c_lb := 91 (only parsing).
Notation c_bs := 92 (only parsing).
Notation c_rb := 93 (only parsing).
Notation c_us := 95 (only parsing).
Notation c_a := 97 (only parsing).
Notation c_b := 98 (only parsing).
Notation c_r := 114 (only parsing).
Notation c_lc := 123 (only parsing).
Notation c_rc := 125 (only parsing).

(** ** UTF-8 (core::str::from_utf8, char::encode_utf8) *)

Definition enc_char (c : char) : bytes :=
  if c <? 128 then [c]
  else if c <? 2048 then [192 + c / 64; 128 + c mod 64]
  else if c <? 65536 then
    [224 + c / 4096; 128 + (c / 64) mod 64; 128 + c mod 64]
  else [240 + c / 262144; 128 + (c / 4096) mod 64;
        128 + (c / 64) mod 64; 128 + c mod 64].

(** str::as_bytes. *)
Definition enc (s : str) : bytes := flat_map enc_char s.

Definition is_cont (b : byte) : bool := (128 <=? b) && (b <? 192).

(** One character off the front of a byte sequence; [None] if the bytes there
    are not the start of a well-formed character (overlong forms, surrogates
    and values above 10FFFF are rejected, as by core::str::from_utf8). *)
Definition dec_char (bs : bytes) : option (char * bytes) :=
  match bs with
  | [] => None
  | b0 :: r0 =>
      if b0 <? 128 then Some (b0, r0)
      else if (194 <=? b0) && (b0 <? 224) then
        match r0 with
        | b1 :: r1 =>
            if is_cont b1 then Some ((b0 - 192) * 64 + (b1 - 128), r1) else None
        | _ => None
        end
      else if (224 <=? b0) && (b0 <? 240) then
        match r0 with
        | b1 :: b2 :: r2 =>
            let c := (b0 - 224) * 4096 + (b1 - 128) * 64 + (b2 - 128) in
            if is_cont b1 && is_cont b2 && (2048 <=? c) && is_scalar c
            then Some (c, r2) else None
        | _ => None
        end
      else if (240 <=? b0) && (b0 <? 245) then
        match r0 with
        | b1 :: b2 :: b3 :: r3 =>
            let c := (b0 - 240) * 262144 + (b1 - 128) * 4096
                     + (b2 - 128) * 64 + (b3 - 128) in
            if is_cont b1 && is_cont b2 && is_cont b3
               && (65536 <=? c) && is_scalar c
            then Some (c, r3) else None
        | _ => None
        end
      else None
  end.

(** Longest well-formed prefix and the offending rest ([] if none).
    [fuel] bounds the number of characters; [length bs] always suffices. *)
Fixpoint dec_aux (fuel : nat) (bs : bytes) : str * bytes :=
  match fuel with
  | O => ([], bs)
  | S f => match dec_char bs with
           | Some (c, r) => let (s, q) := dec_aux f r in (c :: s, q)
           | None => ([], bs)
           end
  end.

Definition dec_prefix (bs : bytes) : str * bytes := dec_aux (length bs) bs.

(** core::str::from_utf8. *)
Definition from_utf8 (bs : bytes) : option str :=
  match dec_prefix bs with
  | (s, []) => Some s
  | _ => None
  end.

(** ** Environment: library functions defined outside the repository *)

(** Integer and float types. *)
Inductive ik := I8 | I16 | I32 | I64 | I128 | U8 | U16 | U32 | U64 | U128.
Inductive fk := F32 | F64.

Definition ik_signed (k : ik) : bool :=
  match k with I8 | I16 | I32 | I64 | I128 => true | _ => false end.
Definition ik_bits (k : ik) : Z :=
  match k with
  | I8 | U8 => 8 | I16 | U16 => 16 | I32 | U32 => 32
  | I64 | U64 => 64 | I128 | U128 => 128
  end%Z.
Definition ik_min (k : ik) : Z :=
  if ik_signed k then (- 2 ^ (ik_bits k - 1))%Z else 0%Z.
Definition ik_max (k : ik) : Z :=
  if ik_signed k then (2 ^ (ik_bits k - 1) - 1)%Z else (2 ^ ik_bits k - 1)%Z.
Definition in_range (k : ik) (z : Z) : bool :=
  ((ik_min k <=? z) && (z <=? ik_max k))%Z.
Definition is_128 (k : ik) : bool := match k with I128 | U128 => true | _ => false end.
Definition ik_eqb (a b : ik) : bool :=
  match a, b with
  | I8, I8 | I16, I16 | I32, I32 | I64, I64 | I128, I128
  | U8, U8 | U16, U16 | U32, U32 | U64, U64 | U128, U128 => true
  | _, _ => false
  end.
Definition fk_eqb (a b : fk) : bool :=
  match a, b with F32, F32 | F64, F64 => true | _, _ => false end.

(** A number as ron::value::Number; floats are held as their bit pattern. *)
Inductive num := NInt (k : ik) (z : Z) | NFloat (k : fk) (bits : N).

(** Functions of the standard library and of unicode-ident whose tables or
    algorithms are not part of the repository. *)
Class Env := {
  (** unicode_ident::is_xid_start / is_xid_continue *)
  xid_start : char -> bool;
  xid_continue : char -> bool;
  (** tables behind char::escape_debug *)
  grapheme_extended : char -> bool;
  printable : char -> bool;
  (** <f32/f64 as Display> on a finite float or infinity or NaN *)
  f_show : fk -> N -> str;
  (** <f32/f64 as FromStr> *)
  f_read : fk -> str -> option N;
  (** [v % 1. == 0.0] *)
  f_integral : fk -> N -> bool;
  (** [as f32], [as f64] between float types, and from integers *)
  f_narrow : N -> N;
  f_widen : N -> N;
  f_of_int : fk -> Z -> N;
  (** is the cargo feature "integer128" enabled? *)
  int128 : bool;
}.

(** 128-bit integers are supported with that feature only; without it serde's
    default methods report an error *)
Definition int_supported {E : Env} (k : ik) : bool := int128 || negb (is_128 k).

(** IEEE layout constants used by the code (sign, infinity, NaN). *)
Definition f_bits (k : fk) : N := match k with F32 => 32 | F64 => 64 end.
Definition f_mant (k : fk) : N := match k with F32 => 23 | F64 => 52 end.
Definition f_sign (k : fk) (b : N) : bool := N.testbit b (f_bits k - 1).
Definition f_signbit (k : fk) : N := 2 ^ (f_bits k - 1).
Definition f_inf (k : fk) : N := (2 ^ (f_bits k - 1 - f_mant k) - 1) * 2 ^ f_mant k.
Definition f_nan (k : fk) : N := f_inf k + 2 ^ (f_mant k - 1).
Definition f_abs (k : fk) (b : N) : N := b mod f_signbit k.
Definition f_is_nan (k : fk) (b : N) : bool := f_inf k <? f_abs k b.

(** ** Extensions (extensions.rs:4-16): a bit set, here four booleans *)
Record exts := Exts {
  x_unwrap_newtypes : bool;          (* UNWRAP_NEWTYPES = 0x1 *)
  x_implicit_some : bool;            (* IMPLICIT_SOME = 0x2 *)
  x_unwrap_variant_newtypes : bool;  (* UNWRAP_VARIANT_NEWTYPES = 0x4 *)
  x_explicit_struct_names : bool;    (* EXPLICIT_STRUCT_NAMES = 0x8 *)
}.

Definition exts_empty : exts := Exts false false false false.
(** bitflags [|]. *)
Definition exts_or (a b : exts) : exts :=
  Exts (x_unwrap_newtypes a || x_unwrap_newtypes b)
       (x_implicit_some a || x_implicit_some b)
       (x_unwrap_variant_newtypes a || x_unwrap_variant_newtypes b)
       (x_explicit_struct_names a || x_explicit_struct_names b).
(** bitflags [& !b], used by ser/mod.rs:473-475. *)
Definition exts_minus (a b : exts) : exts :=
  Exts (x_unwrap_newtypes a && negb (x_unwrap_newtypes b))
       (x_implicit_some a && negb (x_implicit_some b))
       (x_unwrap_variant_newtypes a && negb (x_unwrap_variant_newtypes b))
       (x_explicit_struct_names a && negb (x_explicit_struct_names b)).
Definition exts_is_empty (a : exts) : bool :=
  negb (x_unwrap_newtypes a || x_implicit_some a
        || x_unwrap_variant_newtypes a || x_explicit_struct_names a).

Definition s_unwrap_newtypes := Eval vm_compute in lit "unwrap_newtypes".
Definition s_implicit_some := Eval vm_compute in lit "implicit_some".
Definition s_unwrap_variant_newtypes := Eval vm_compute in lit "unwrap_variant_newtypes".
Definition s_explicit_struct_names := Eval vm_compute in lit "explicit_struct_names".

(** Extensions::from_ident (extensions.rs:22-30). *)
Definition exts_from_ident (s : str) : option exts :=
  if str_eqb s s_unwrap_newtypes then Some (Exts true false false false)
  else if str_eqb s s_implicit_some then Some (Exts false true false false)
  else if str_eqb s s_unwrap_variant_newtypes then Some (Exts false false true false)
  else if str_eqb s s_explicit_struct_names then Some (Exts false false false true)
  else None.

(** ** Errors (error.rs:32-126).  Payloads that are only used for display are
    kept when they are cheap and dropped otherwise (Message, InvalidEscape and
    the texts of InvalidValueForType). *)
Inductive err :=
  | EFmt | EIo | EMessage
  | EEof | EExpectedArray | EExpectedArrayEnd | EExpectedAttribute
  | EExpectedAttributeEnd | EExpectedBoolean | EExpectedComma | EExpectedChar
  | EExpectedByteLiteral | EExpectedFloat | EFloatUnderscore | EExpectedInteger
  | EExpectedOption | EExpectedOptionEnd | EExpectedMap | EExpectedMapColon
  | EExpectedMapEnd | EExpectedDifferentStructName (expected found : str)
  | EExpectedStructLike | EExpectedNamedStructLike (name : str)
  | EExpectedStructLikeEnd | EExpectedUnit | EExpectedString
  | EExpectedByteString | EExpectedStringEnd | EExpectedIdentifier
  | EInvalidEscape | EIntegerOutOfBounds | EInvalidIntegerDigit (digit : char) (base : Z)
  | ENoSuchExtension (name : str) | EUnclosedBlockComment | EUnclosedLineComment
  | EUnderscoreAtBeginning | EUnexpectedChar (c : char) | EUtf8Error
  | ETrailingCharacters | EInvalidValueForType
  | EBase64Hint (decoded : bytes)   (* InvalidValueForType of parse.rs:1113 *)
  | EExpectedDifferentLength (found : nat)
  | ENoSuchEnumVariant (found : str) (outer : option str)
  | ENoSuchStructField (found : str) (outer : option str)
  | EMissingStructField (field : str) (outer : option str)
  | EDuplicateStructField (field : str) (outer : option str)
  | EInvalidIdentifier (name : str) | ESuggestRawIdentifier (name : str)
  | EExpectedRawValue | EExceededRecursionLimit | EExpectedStructName (name : str)
  | EExpectedRangeSyntax.

(** ** Parser and deserializer state

    One record for [Parser] (parse.rs:62-75) and the extra fields of
    [Deserializer] (de/mod.rs:36-42).  The source text is immutable, so each
    cursor [k] is represented by the suffix [src[k..]]:

    - [rest]   src[cursor..]
    - [pre_ws] src[pre_ws_cursor..]
    - [prev]   src[prev_cursor.cursor..] (only used for error spans)
    - [last_ws] last_ws_len, [None] for WS_CURSOR_UNCLOSED_LINE (parse.rs:83)
    - [nt]     newtype_variant
    - [last_id] last_identifier
    - [lim]    recursion_limit (usize saturation is not modelled)

    [serde_content_newtype] is only ever set while a value is read into serde's
    buffer; there it is an argument (Content.v). *)
Record st := St {
  rest : str;
  pre_ws : str;
  last_ws : option nat;
  prev : str;
  ext : exts;
  nt : bool;
  last_id : option str;
  lim : option nat;
}.

(** A [ParserCursor] (parse.rs:71-75). *)
Definition cursor : Type := (str * str * option nat)%type.
Definition get_cursor (s : st) : cursor := (rest s, pre_ws s, last_ws s).

(** ** Outcomes

    [Err] keeps the state: error spans and the backtracking callers look at
    it.  [Panic] is a Rust panic, [OutOfFuel] an exhausted loop bound of the
    model; both are proved unreachable. *)
Inductive out (A : Type) :=
  | Ok (a : A) (s : st)
  | Err (e : err) (s : st)
  | Panic
  | OutOfFuel.
Arguments Ok {A} a s.
Arguments Err {A} e s.
Arguments Panic {A}.
Arguments OutOfFuel {A}.

Definition M (A : Type) := st -> out A.
Definition ret {A} (a : A) : M A := fun s => Ok a s.
Definition fail {A} (e : err) : M A := fun s => Err e s.
Definition panic {A} : M A := fun _ => Panic.
Definition oof {A} : M A := fun _ => OutOfFuel.
(** [?] *)
Definition bind {A B} (m : M A) (k : A -> M B) : M B := fun s =>
  match m s with
  | Ok a s' => k a s'
  | Err e s' => Err e s'
  | Panic => Panic
  | OutOfFuel => OutOfFuel
  end.
(** inspecting a [Result] without propagating it; the error branch runs in the
    state left by the failure. *)
Definition try {A B} (m : M A) (ok : A -> M B) (ko : err -> M B) : M B := fun s =>
  match m s with
  | Ok a s' => ok a s'
  | Err e s' => ko e s'
  | Panic => Panic
  | OutOfFuel => OutOfFuel
  end.
(** [map_err] *)
Definition map_err {A} (f : err -> err) (m : M A) : M A :=
  try m ret (fun e => fail (f e)).
Definition get : M st := fun s => Ok s s.
Definition modify (f : st -> st) : M unit := fun s => Ok tt (f s).
(** reading a [None] slice is the Rust panic *)
Definition of_slice {A} (o : option A) : M A :=
  match o with Some a => ret a | None => panic end.

Declare Scope m_scope.
Delimit Scope m_scope with M.
Notation "x <- m ;; k" := (bind m (fun x => k))
  (at level 61, m at next level, right associativity) : m_scope.
Notation "m ;;; k" := (bind m (fun _ => k))
  (at level 61, right associativity) : m_scope.
Open Scope m_scope.

(** field updates *)
Definition set_rest (r : str) (s : st) : st :=
  St r (pre_ws s) (last_ws s) (prev s) (ext s) (nt s) (last_id s) (lim s).
Definition set_cursor (c : cursor) (s : st) : st :=
  let '(r, p, l) := c in St r p l (prev s) (ext s) (nt s) (last_id s) (lim s).
Definition set_prev (r : str) (s : st) : st :=
  St (rest s) (pre_ws s) (last_ws s) r (ext s) (nt s) (last_id s) (lim s).
Definition set_pre_ws (r : str) (s : st) : st :=
  St (rest s) r (last_ws s) (prev s) (ext s) (nt s) (last_id s) (lim s).
Definition set_last_ws (l : option nat) (s : st) : st :=
  St (rest s) (pre_ws s) l (prev s) (ext s) (nt s) (last_id s) (lim s).
Definition set_ext (e : exts) (s : st) : st :=
  St (rest s) (pre_ws s) (last_ws s) (prev s) e (nt s) (last_id s) (lim s).
Definition set_nt (b : bool) (s : st) : st :=
  St (rest s) (pre_ws s) (last_ws s) (prev s) (ext s) b (last_id s) (lim s).
Definition set_last_id (i : option str) (s : st) : st :=
  St (rest s) (pre_ws s) (last_ws s) (prev s) (ext s) (nt s) i (lim s).
Definition set_lim (l : option nat) (s : st) : st :=
  St (rest s) (pre_ws s) (last_ws s) (prev s) (ext s) (nt s) (last_id s) l.
