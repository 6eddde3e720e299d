(** Model of the tokenizer, parse.rs. *)
From Coq Require Import String Ascii NArith ZArith Bool List.
From Verif Require Import Base Base64.
Import ListNotations.
Open Scope N_scope.
Open Scope list_scope.
Open Scope m_scope.

(** ** Character classes *)

Definition is_digit (c : char) : bool := (c_0 <=? c) && (c <=? c_9).

(** char::is_ascii_hexdigit *)
Definition is_hexdigit (c : char) : bool :=
  is_digit c || ((97 <=? c) && (c <=? 102)) || ((65 <=? c) && (c <=? 70)).

(** parse.rs:21-23 *)
Definition is_int_char (c : char) : bool := is_hexdigit c || (c =? c_us).

(** parse.rs:25-27 *)
Definition is_float_char (c : char) : bool :=
  is_digit c || (c =? 101) || (c =? 69) || (c =? c_dot) || (c =? c_plus)
  || (c =? c_minus) || (c =? c_us).

(** parse.rs:37-51 *)
Definition is_ws_char (c : char) : bool :=
  (c =? 32) || (c =? 9) || (c =? 10) || (c =? 13) || (c =? 11) || (c =? 12)
  || (c =? 133) || (c =? 8206) || (c =? 8207) || (c =? 8232) || (c =? 8233).

(** string literals of the grammar *)
Definition s_true := Eval vm_compute in lit "true".
Definition s_false := Eval vm_compute in lit "false".
Definition s_Some := Eval vm_compute in lit "Some".
Definition s_None := Eval vm_compute in lit "None".
Definition s_inf := Eval vm_compute in lit "inf".
Definition s_inff32 := Eval vm_compute in lit "inff32".
Definition s_inff64 := Eval vm_compute in lit "inff64".
Definition s_NaN := Eval vm_compute in lit "NaN".
Definition s_NaNf32 := Eval vm_compute in lit "NaNf32".
Definition s_NaNf64 := Eval vm_compute in lit "NaNf64".
Definition s_pinf := Eval vm_compute in lit "+inf".
Definition s_minf := Eval vm_compute in lit "-inf".
Definition s_pNaN := Eval vm_compute in lit "+NaN".
Definition s_mNaN := Eval vm_compute in lit "-NaN".
Definition s_f32 := Eval vm_compute in lit "f32".
Definition s_f64 := Eval vm_compute in lit "f64".
Definition s_0b := Eval vm_compute in lit "0b".
Definition s_0o := Eval vm_compute in lit "0o".
Definition s_0x := Eval vm_compute in lit "0x".
Definition s_unit := Eval vm_compute in lit "()".
Definition s_dotdot := Eval vm_compute in lit "..".
Definition s_dotdoteq := Eval vm_compute in lit "..=".
Definition s_bdq : str := [c_b; c_dq].
Definition s_bsq : str := [c_b; c_sq].
Definition s_br : str := [c_b; c_r].
Definition s_brh : str := [c_b; c_r; c_hash].
Definition s_brdq : str := [c_b; c_r; c_dq].
Definition s_rdq : str := [c_r; c_dq].
Definition s_rh : str := [c_r; c_hash].
Definition s_rhdq : str := [c_r; c_hash; c_dq].
Definition s_rhh : str := [c_r; c_hash; c_hash].
Definition s_bsx : str := [c_bs; 120].
Definition s_open_comment : str := [c_slash; c_star].
Definition s_close_comment : str := [c_star; c_slash].
Definition s_enable := Eval vm_compute in lit "enable".
Definition s_type := Eval vm_compute in lit "type".
Definition s_schema := Eval vm_compute in lit "schema".

(** integer suffixes *)
Definition ik_suffix (k : ik) : str :=
  match k with
  | I8 => lit "i8" | I16 => lit "i16" | I32 => lit "i32" | I64 => lit "i64"
  | I128 => lit "i128" | U8 => lit "u8" | U16 => lit "u16" | U32 => lit "u32"
  | U64 => lit "u64" | U128 => lit "u128"
  end.

Section WithEnv.
Context {E : Env}.

(** parse.rs:29-31 *)
Definition is_ident_first_char (c : char) : bool := (c =? c_us) || xid_start c.

(** parse.rs:33-35 *)
Definition is_ident_raw_char (c : char) : bool :=
  (c =? c_dot) || (c =? c_plus) || (c =? c_minus) || xid_continue c.

(** ** Cursor primitives *)

(** advance_bytes (parse.rs:151-154).  Rust only adds to the offset and panics
    at the next [src()] if the offset is bad; the model panics at once. *)
Definition advance_bytes (n : nat) : M unit := fun s =>
  match bdrop n (rest s) with
  | Some r => Ok tt (set_rest r (set_prev (rest s) s))
  | None => Panic
  end.

(** set_cursor (parse.rs:133-135): [prev_cursor] is left alone. *)
Definition set_cursor_m (c : cursor) : M unit := modify (set_cursor c).
Definition get_cursor_m : M cursor := fun s => Ok (get_cursor s) s.
(** src (parse.rs:182-184), pre_ws_src (parse.rs:186-188) *)
Definition src : M str := fun s => Ok (rest s) s.
Definition pre_ws_src : M str := fun s => Ok (pre_ws s) s.

(** next_char (parse.rs:156-160); [prev_cursor] is left alone. *)
Definition next_char : M char := fun s =>
  match rest s with
  | [] => Err EEof s
  | c :: r => Ok c (set_rest r s)
  end.

(** skip_next_char (parse.rs:162-164) *)
Definition skip_next_char : M unit := try next_char (fun _ => ret tt) (fun _ => ret tt).

(** peek_char (parse.rs:166-168) *)
Definition peek_char : M (option char) := fun s =>
  Ok (match rest s with [] => None | c :: _ => Some c end) s.

(** peek_char_or_eof (parse.rs:170-172) *)
Definition peek_char_or_eof : M char := fun s =>
  match rest s with [] => Err EEof s | c :: _ => Ok c s end.

(** check_char / check_str (parse.rs:174-180) *)
Definition check_char (c : char) : M bool := fun s =>
  Ok (match rest s with [] => false | d :: _ => d =? c end) s.
Definition check_str (p : str) : M bool := fun s => Ok (starts_with p (rest s)) s.

(** consume_str / consume_char (parse.rs:190-208) *)
Definition consume_str (p : str) : M bool :=
  b <- check_str p ;;
  if b then advance_bytes (blen p) ;;; ret true else ret false.
Definition consume_char (c : char) : M bool :=
  b <- check_char c ;;
  if b then advance_bytes (len_utf8 c) ;;; ret true else ret false.

(** expect_char (parse.rs:224-230) *)
Definition expect_char (c : char) (e : err) : M unit :=
  b <- consume_char c ;; if b then ret tt else fail e.

(** next_chars_while_from_len (parse.rs:238-242) *)
Definition next_chars_while_from_len (from : nat) (p : char -> bool) : M nat :=
  r <- src ;;
  t <- of_slice (bdrop from r) ;;
  ret (blen (takewhile p t)).

(** next_chars_while_len (parse.rs:233-235) *)
Definition next_chars_while_len (p : char -> bool) : M nat :=
  next_chars_while_from_len 0 p.

(** is_number_start (parse.rs:147-149), on the text [r] at the cursor *)
Definition is_number_start (c : char) (r : str) : bool :=
  (is_digit c || (c =? c_plus) || (c =? c_minus) || (c =? c_dot) || (c =? c_b))
  && (negb (c =? c_b) || starts_with s_bsq r).

(** check_ident_other_char (parse.rs:569-574) *)
Definition check_ident_other_char (i : nat) : M bool :=
  r <- src ;;
  t <- of_slice (bdrop i r) ;;
  ret (match t with [] => false | c :: _ => xid_continue c end).

(** check_ident (parse.rs:565-567) *)
Definition check_ident (ident : str) : M bool :=
  b <- check_str ident ;;
  if b then (o <- check_ident_other_char (blen ident) ;; ret (negb o)) else ret false.

(** consume_ident (parse.rs:703-711) *)
Definition consume_ident (ident : str) : M bool :=
  b <- check_ident ident ;;
  if b then advance_bytes (blen ident) ;;; ret true else ret false.

(** ** Whitespace and comments *)

Inductive comment := ClosedLine | UnclosedLine | Block.

(** the [while level > 0] loop (parse.rs:1413-1430) *)
Fixpoint block_loop (fuel : nat) (level : nat) : M unit :=
  match level with
  | O => ret tt
  | S lower =>
      match fuel with
      | O => oof
      | S f =>
          n <- next_chars_while_len (fun c => negb ((c =? c_slash) || (c =? c_star))) ;;
          r <- src ;;
          match r with
          | [] => fail EUnclosedBlockComment
          | _ =>
              advance_bytes n ;;;
              o <- consume_str s_open_comment ;;
              if o then block_loop f (S level)
              else
                c <- consume_str s_close_comment ;;
                if c then block_loop f lower
                else
                  map_err (fun _ => EUnclosedBlockComment) next_char ;;;
                  block_loop f level
          end
      end
  end.

(** skip_comment (parse.rs:1396-1439) *)
Definition skip_comment : M (option comment) :=
  b <- consume_char c_slash ;;
  if b then
    c <- next_char ;;
    if c =? c_slash then
      n <- next_chars_while_len (fun c => negb (c =? c_nl)) ;;
      advance_bytes n ;;;
      r <- src ;;
      ret (Some (match r with [] => UnclosedLine | _ => ClosedLine end))
    else if c =? c_star then
      r <- src ;;
      block_loop (S (length r)) 1 ;;;
      ret (Some Block)
    else fail (EUnexpectedChar c)
  else ret None.

(** the loop of skip_ws (parse.rs:1073-1084); [true] when it ended in an
    unclosed line comment *)
Fixpoint ws_loop (fuel : nat) : M bool :=
  match fuel with
  | O => oof
  | S f =>
      n <- next_chars_while_len is_ws_char ;;
      advance_bytes n ;;;
      c <- skip_comment ;;
      match c with
      | None => ret false
      | Some UnclosedLine => ret true
      | Some _ => ws_loop f
      end
  end.

(** parse.rs:1062-1067: start tracking a new whitespace run unless the last
    one ends exactly here.  In suffix form [pre + len < cursor] reads
    [len + |rest| < |pre_ws|]. *)
Definition track_ws (s : st) : st :=
  match last_ws s with
  | None => s
  | Some l =>
      if Nat.ltb (l + blen (rest s)) (blen (pre_ws s)) then set_pre_ws (rest s) s else s
  end.

(** [cursor - pre_ws_cursor] (parse.rs:1086), an overflow being a panic *)
Definition update_last_ws : M unit := fun s =>
  if Nat.leb (blen (rest s)) (blen (pre_ws s))
  then Ok tt (set_last_ws (Some (blen (pre_ws s) - blen (rest s))%nat) s)
  else Panic.

(** skip_ws (parse.rs:1061-1089) *)
Definition skip_ws : M unit :=
  modify track_ws ;;;
  r <- src ;;
  match r with
  | [] => ret tt
  | _ =>
      u <- ws_loop (S (length r)) ;;
      if u then modify (set_last_ws None) else update_last_ws
  end.

(** has_unclosed_line_comment (parse.rs:1091-1093) *)
Definition has_unclosed_line_comment : M bool := fun s =>
  Ok (match rest s, last_ws s with [], None => true | _, _ => false end) s.

(** comma (parse.rs:551-561) *)
Definition comma : M bool :=
  skip_ws ;;;
  b <- consume_char c_comma ;;
  if b then skip_ws ;;; ret true else ret false.

(** consume_all (parse.rs:210-222): every element is tried, also after a
    failure *)
Fixpoint consume_all (l : list str) : M bool :=
  match l with
  | [] => ret true
  | p :: l' =>
      b <- (b <- consume_str p ;; if b then skip_ws ;;; ret true else ret false) ;;
      c <- consume_all l' ;;
      ret (b && c)
  end.

(** ** Identifiers *)

(** the shared prefix test of skip_identifier and identifier
    (parse.rs:923-930, 976-983) *)
Definition starts_string_literal (r : str) : bool :=
  starts_with s_bdq r || starts_with s_bsq r || starts_with s_brh r
  || starts_with s_brdq r || starts_with s_rdq r || starts_with s_rhdq r
  || starts_with s_rhh r.

(** skip_identifier (parse.rs:921-958) *)
Definition skip_identifier : M (option str) :=
  r <- src ;;
  if starts_string_literal r then ret None
  else if starts_with s_rh r then
    n <- next_chars_while_from_len 2 is_ident_raw_char ;;
    if Nat.ltb 0 n then
      t <- of_slice (bdrop 2 r) ;;
      id <- of_slice (btake n t) ;;
      advance_bytes (2 + n) ;;;
      ret (Some id)
    else ret None
  else
    match r with
    | [] => ret None
    | c :: _ =>
        if is_ident_first_char c then
          n <- next_chars_while_from_len (len_utf8 c) xid_continue ;;
          let len := (len_utf8 c + n)%nat in
          id <- of_slice (btake len r) ;;
          advance_bytes len ;;;
          ret (Some id)
        else ret None
    end.

(** identifier (parse.rs:960-1030) *)
Definition identifier : M str :=
  first <- peek_char_or_eof ;;
  r <- src ;;
  if negb (is_ident_first_char first) then
    if is_ident_raw_char first then
      n <- next_chars_while_len is_ident_raw_char ;;
      id <- of_slice (btake n r) ;;
      fail (ESuggestRawIdentifier id)
    else fail EExpectedIdentifier
  else if starts_string_literal r then fail EExpectedIdentifier
  else
    len <-
      (if starts_with s_rh r then
         backup <- get_cursor_m ;;
         advance_bytes 2 ;;;
         c <- peek_char ;;
         match c with
         | Some c =>
             if is_ident_raw_char c then next_chars_while_len is_ident_raw_char
             else set_cursor_m backup ;;; fail EExpectedIdentifier
         | None => set_cursor_m backup ;;; fail EExpectedIdentifier
         end
       else
         std <- (if first =? c_r then next_chars_while_len xid_continue
                 else n <- next_chars_while_from_len (len_utf8 first) xid_continue ;;
                      ret (len_utf8 first + n)%nat) ;;
         raw <- next_chars_while_len is_ident_raw_char ;;
         if Nat.ltb std raw then
           id <- of_slice (btake raw r) ;; fail (ESuggestRawIdentifier id)
         else ret std) ;;
    r' <- src ;;
    id <- of_slice (btake len r') ;;
    advance_bytes len ;;;
    ret id.

(** consume_struct_name (parse.rs:713-742) *)
Definition consume_struct_name (ident : str) : M bool :=
  b <- check_ident [] ;;
  if b then
    s <- get ;;
    if x_explicit_struct_names (ext s) then fail (EExpectedStructName ident)
    else ret false
  else
    try identifier
      (fun found =>
         match ident with
         | [] => fail (EExpectedNamedStructLike ident)
         | _ =>
             if str_eqb found ident then ret true
             else fail (EExpectedDifferentStructName ident found)
         end)
      (fun e =>
         match e with
         | ESuggestRawIdentifier f =>
             if str_eqb f ident then fail e else fail (EExpectedNamedStructLike ident)
         | _ => fail (EExpectedNamedStructLike ident)
         end).

(** ** Numbers *)

(** decode_hex (parse.rs:1288-1300) *)
Definition hex_val (c : char) : option N :=
  if is_digit c then Some (c - c_0)
  else if (97 <=? c) && (c <=? 102) then Some (10 + (c - 97))
  else if (65 <=? c) && (c <=? 70) then Some (10 + (c - 65))
  else None.
Definition decode_hex (c : char) : M N :=
  match hex_val c with Some d => ret d | None => fail EInvalidEscape end.

(** parse_integer_digits (parse.rs:247-281).  [k] stands for the Rust type
    [T]; [checked_mul_ext] etc. (parse.rs:1461-1502) fail exactly when the
    result leaves the range of the type. [whole] is [s.len()], [i] the byte
    index of the current character. *)
Fixpoint int_digits (k : ik) (base : Z) (neg : bool) (whole i : nat)
         (digits : str) (acc : Z) : M Z :=
  match digits with
  | [] => advance_bytes whole ;;; ret acc
  | c :: ds =>
      if c =? c_us then int_digits k base neg whole (i + len_utf8 c) ds acc
      else if negb (in_range k (acc * base)) then
        advance_bytes whole ;;; fail EIntegerOutOfBounds
      else
        d <- decode_hex c ;;
        if (base <=? Z.of_N d)%Z then
          advance_bytes i ;;; fail (EInvalidIntegerDigit c base)
        else
          let acc' := if neg then (acc * base - Z.of_N d)%Z
                      else (acc * base + Z.of_N d)%Z in
          if negb (in_range k acc') then
            advance_bytes whole ;;; fail EIntegerOutOfBounds
          else int_digits k base neg whole (i + len_utf8 c) ds acc'
  end.

(** parse_integer (parse.rs:283-301) *)
Definition parse_integer (k : ik) (neg : bool) (base : Z) : M Z :=
  n <- next_chars_while_len is_int_char ;;
  if Nat.eqb n 0 then fail EExpectedInteger
  else
    u <- check_char c_us ;;
    if u then fail EUnderscoreAtBeginning
    else
      r <- src ;;
      s <- of_slice (btake n r) ;;
      int_digits k base neg n 0 s 0.

(** ParsedInteger::parse (parse.rs:1566-1611) *)
Definition narrow_signed (z : Z) : ik :=
  if in_range I8 z then I8 else if in_range I16 z then I16
  else if in_range I32 z then I32
  else if int128 then (if in_range I64 z then I64 else I128) else I64.
Definition narrow_unsigned (z : Z) : ik :=
  if in_range U8 z then U8 else if in_range U16 z then U16
  else if in_range U32 z then U32
  else if int128 then (if in_range U64 z then U64 else U128) else U64.
Definition large_sint : ik := if int128 then I128 else I64.
Definition large_uint : ik := if int128 then U128 else U64.

(** The type parameter [T: Integer] is a fixed integer type ([Some k], the
    impl_integer! macro, parse.rs:1515-1549) or ParsedInteger ([None]). *)
Definition int_parse (t : option ik) (neg : bool) (base : Z) : M (ik * Z) :=
  match t with
  | Some k => z <- parse_integer k neg base ;; ret (k, z)
  | None =>
      if neg then
        z <- parse_integer large_sint true base ;; ret (narrow_signed z, z)
      else
        z <- parse_integer large_uint false base ;; ret (narrow_unsigned z, z)
  end.

(** try_from_parsed_integer (parse.rs:1522-1535, 1613-1615) *)
Definition try_from_parsed_integer (t : option ik) (p : ik * Z) : M (ik * Z) :=
  match t with
  | None => ret p
  | Some k => if ik_eqb k (fst p) then ret p else fail EInvalidValueForType
  end.

(** the if/else chain over suffixes (parse.rs:359-446) *)
Fixpoint consume_int_suffix (l : list ik) : M (option ik) :=
  match l with
  | [] => ret None
  | k :: l' =>
      b <- consume_ident (ik_suffix k) ;;
      if b then ret (Some k) else consume_int_suffix l'
  end.
Definition int_suffixes : list ik :=
  [I8; I16; I32; I64; U8; U16; U32; U64] ++ (if int128 then [I128; U128] else []).

Inductive escape := EscAscii (b : byte) | EscUtf8 (c : char).

(** decode_ascii_escape (parse.rs:1275-1285) *)
Definition decode_ascii_escape : M N :=
  a <- next_char ;; da <- decode_hex a ;;
  b <- next_char ;; db <- decode_hex b ;;
  ret (da * 16 + db).

(** the multi-byte continuation of a byte escape in a UTF-8 string
    (parse.rs:1334-1351); [n] rounds are left *)
Fixpoint escape_more (n : nat) (acc : bytes) : M escape :=
  match n with
  | O => fail EInvalidEscape
  | S n' =>
      b <- consume_str s_bsx ;;
      if b then
        x <- decode_ascii_escape ;;
        let acc := acc ++ [x] in
        match from_utf8 acc with
        | Some (c :: _) => ret (EscUtf8 c)
        | _ => escape_more n' acc
        end
      else fail EInvalidEscape
  end.

(** the digit loop of a Unicode escape (parse.rs:1359-1372): at most [n] more
    digits; returns the number of digits read and the value *)
Fixpoint unicode_digits (n : nat) (count : nat) (acc : N) : M (nat * N) :=
  match n with
  | O => ret (count, acc)
  | S n' =>
      c <- peek_char_or_eof ;;
      if c =? c_rc then ret (count, acc)
      else
        skip_next_char ;;;
        d <- decode_hex c ;;
        unicode_digits n' (S count) (acc * 16 + d)
  end.

(** parse_escape (parse.rs:1302-1394); [binary] is EscapeEncoding::Binary *)
Definition parse_escape (binary is_char : bool) : M escape :=
  c <- next_char ;;
  if c =? c_sq then ret (EscAscii c_sq)
  else if c =? c_dq then ret (EscAscii c_dq)
  else if c =? c_bs then ret (EscAscii c_bs)
  else if c =? 110 then ret (EscAscii 10)
  else if c =? 114 then ret (EscAscii 13)
  else if c =? 116 then ret (EscAscii 9)
  else if c =? 48 then ret (EscAscii 0)
  else if c =? 120 then
    b <- decode_ascii_escape ;;
    if binary then ret (EscAscii b)
    else
      match from_utf8 [b] with
      | Some (c :: _) => ret (EscUtf8 c)
      | _ => if is_char then fail EInvalidEscape else escape_more 3 [b]
      end
  else if c =? 117 then
    expect_char c_lc EInvalidEscape ;;;
    p <- unicode_digits 6 0 0 ;;
    let '(count, v) := p in
    if Nat.eqb count 0 then fail EInvalidEscape
    else
      expect_char c_rc EInvalidEscape ;;;
      if is_scalar v then ret (EscUtf8 v) else fail EInvalidEscape
  else fail EInvalidEscape.

(** [&a[..a.len() - b.len()]] *)
Definition slice_before (a b : str) : M str :=
  if Nat.leb (blen b) (blen a) then of_slice (btake (blen a - blen b) a) else panic.

(** byte literals of integer (parse.rs:316-339) *)
Definition byte_literal (t : option ik) (backup : str) : M (ik * Z) :=
  c <- next_char ;;
  b <- (if c =? c_bs then
          e <- parse_escape true true ;;
          match e with
          | EscAscii b => ret b
          | EscUtf8 _ => fail EInvalidEscape
          end
        else if c <? 128 then ret c
        else fail EExpectedByteLiteral) ;;
  q <- consume_char c_sq ;;
  if q then
    r <- src ;;
    slice_before backup r ;;;
    try_from_parsed_integer t (U8, Z.of_N b)
  else fail EExpectedByteLiteral.

(** the part of integer after sign and base prefix (parse.rs:351-464) *)
Definition integer_body (t : option ik) (neg : bool) (base : Z) (backup : str)
  : M (ik * Z) :=
  n <- next_chars_while_len is_int_char ;;
  r <- src ;;
  t' <- of_slice (bdrop n r) ;;
  let go := int_parse t neg base in
  match t' with
  | c :: _ =>
      if (c =? 105) || (c =? 117) then
        cur <- get_cursor_m ;;
        advance_bytes n ;;;
        sfx <- consume_int_suffix int_suffixes ;;
        match sfx with
        | None => set_cursor_m cur ;;; go
        | Some k =>
            after <- src ;;
            set_cursor_m cur ;;;
            let finish := slice_before backup after ;;; ret tt in
            try (parse_integer k neg base)
              (fun z => skip_identifier ;;; finish ;;;
                        try_from_parsed_integer t (k, z))
              (fun e =>
                 match e with
                 | EUnderscoreAtBeginning | EInvalidIntegerDigit _ _ => finish ;;; fail e
                 | _ => skip_identifier ;;; finish ;;; fail e
                 end)
        end
      else go
  | [] => go
  end.

(** integer (parse.rs:304-465) *)
Definition integer (t : option ik) : M (ik * Z) :=
  backup <- src ;;
  c <- peek_char_or_eof ;;
  let signed neg :=
    b <- consume_str s_0b ;;
    if b then integer_body t neg 2 backup else
    o <- consume_str s_0o ;;
    if o then integer_body t neg 8 backup else
    x <- consume_str s_0x ;;
    if x then integer_body t neg 16 backup else
    integer_body t neg 10 backup in
  if c =? c_plus then skip_next_char ;;; signed false
  else if c =? c_minus then skip_next_char ;;; signed true
  else if c =? c_b then
    b <- consume_str s_bsq ;;
    if b then byte_literal t backup else signed false
  else signed false.

(** <f32/f64/ParsedFloat as Float>::parse (parse.rs:1627-1629, 1657-1666);
    [Some k] is a fixed float type, [None] is ParsedFloat *)
Definition float_parse (t : option fk) (s : str) : M (fk * N) :=
  match t with
  | Some k => match f_read k s with
              | Some b => ret (k, b)
              | None => fail EExpectedFloat
              end
  | None => match f_read F64 s with
            | Some b =>
                if b =? f_widen (f_narrow b) then ret (F32, f_narrow b) else ret (F64, b)
            | None => fail EExpectedFloat
            end
  end.

(** try_from_parsed_float (parse.rs:1631-1641, 1668-1670) *)
Definition try_from_parsed_float (t : option fk) (p : fk * N) : M (fk * N) :=
  match t with
  | None => ret p
  | Some k => if fk_eqb k (fst p) then ret p else fail EInvalidValueForType
  end.

(** the literal table (parse.rs:823-830) *)
Definition float_literals : list (str * N * N) :=
  [ (s_inf, f_inf F32, f_inf F64);
    (s_pinf, f_inf F32, f_inf F64);
    (s_minf, f_inf F32 + f_signbit F32, f_inf F64 + f_signbit F64);
    (s_NaN, f_nan F32, f_nan F64);
    (s_pNaN, f_nan F32, f_nan F64);
    (s_mNaN, f_nan F32 + f_signbit F32, f_nan F64 + f_signbit F64) ].

Definition next_is_xid_continue (r : str) : bool :=
  match r with [] => false | c :: _ => xid_continue c end.

(** the literal loop (parse.rs:823-852); [None] when nothing matched *)
Fixpoint float_lits (t : option fk) (l : list (str * N * N)) : M (option (fk * N)) :=
  match l with
  | [] => ret None
  | (w, v32, v64) :: l' =>
      b <- consume_ident w ;;
      if b then (x <- float_parse t w ;; ret (Some x))
      else
        r <- src ;;
        match strip_prefix w r with
        | None => float_lits t l'
        | Some sfx =>
            let with_suffix k v (next : M (option (fk * N))) :=
              match strip_prefix (match k with F32 => s_f32 | F64 => s_f64 end) sfx with
              | Some post =>
                  if next_is_xid_continue post then next
                  else
                    of_slice (btake (blen w + 3) r) ;;;
                    advance_bytes (blen w + 3) ;;;
                    x <- try_from_parsed_float t (k, v) ;;
                    ret (Some x)
              | None => next
              end in
            with_suffix F32 v32 (with_suffix F64 v64 (float_lits t l'))
        end
  end.

(** the underscore filter (parse.rs:866-883); [None] is the error case, at
    byte index [i] *)
Fixpoint float_chars (i : nat) (allow : bool) (s : str) : str + nat :=
  match s with
  | [] => inl []
  | c :: s' =>
      if c =? c_us then
        if allow then float_chars (i + len_utf8 c) allow s' else inr i
      else
        let allow' := if is_digit c || (c =? 101) || (c =? 69) then true
                      else if c =? c_dot then false else allow in
        match float_chars (i + len_utf8 c) allow' s' with
        | inl f => inl (c :: f)
        | inr j => inr j
        end
  end.

(** [s.find("..").unwrap_or(s.len())] as a length (parse.rs:856) *)
Definition dotdot_len (s : str) : nat :=
  match find_str s_dotdot s with
  | Some (a, _) => blen a
  | None => blen s
  end.

(** float (parse.rs:819-919) *)
Definition float (t : option fk) : M (fk * N) :=
  l <- float_lits t float_literals ;;
  match l with
  | Some x => ret x
  | None =>
      raw <- next_chars_while_len is_float_char ;;
      r <- src ;;
      s <- of_slice (btake raw r) ;;
      let n := dotdot_len s in
      if Nat.eqb n 0 then fail EExpectedFloat
      else
        u <- check_char c_us ;;
        if u then fail EUnderscoreAtBeginning
        else
          s <- of_slice (btake n r) ;;
          match float_chars 0 false s with
          | inr i => advance_bytes i ;;; fail EFloatUnderscore
          | inl f =>
              t' <- of_slice (bdrop n r) ;;
              let plain :=
                v <- float_parse t f ;; advance_bytes n ;;; ret v in
              match t' with
              | c :: _ =>
                  if c =? 102 then
                    backup <- get_cursor_m ;;
                    advance_bytes n ;;;
                    let finish k :=
                      match f_read k f with
                      | None => set_cursor_m backup ;;; fail EExpectedFloat
                      | Some v =>
                          after <- src ;;
                          slice_before r after ;;;
                          try_from_parsed_float t (k, v)
                      end in
                    b32 <- consume_ident s_f32 ;;
                    if b32 then finish F32
                    else
                      b64 <- consume_ident s_f64 ;;
                      if b64 then finish F64
                      else set_cursor_m backup ;;; plain
                  else plain
              | [] => plain
              end
          end
  end.

(** next_bytes_is_float (parse.rs:1032-1059) *)
Definition next_bytes_is_float : M bool :=
  c <- peek_char ;;
  match c with
  | None => ret false
  | Some c =>
      let skip := if (c =? c_plus) || (c =? c_minus) then 1%nat else 0%nat in
      raw <- next_chars_while_from_len skip is_float_char ;;
      r <- src ;;
      t <- of_slice (bdrop skip r) ;;
      s <- of_slice (btake raw t) ;;
      let fl := Nat.min (dotdot_len s) raw in
      il <- next_chars_while_from_len skip is_int_char ;;
      ret (Nat.ltb il fl)
  end.

(** any_number (parse.rs:467-519) *)
Definition num_of_float (p : fk * N) : num := NFloat (fst p) (snd p).
Definition num_of_int (p : ik * Z) : num := NInt (fst p) (snd p).
Definition any_number : M num :=
  b <- consume_ident s_inf ;;
  if b then ret (NFloat F32 (f_inf F32)) else
  b <- consume_ident s_inff32 ;;
  if b then ret (NFloat F32 (f_inf F32)) else
  b <- consume_ident s_inff64 ;;
  if b then ret (NFloat F64 (f_inf F64)) else
  b <- consume_ident s_NaN ;;
  if b then ret (NFloat F32 (f_nan F32)) else
  b <- consume_ident s_NaNf32 ;;
  if b then ret (NFloat F32 (f_nan F32)) else
  b <- consume_ident s_NaNf64 ;;
  if b then ret (NFloat F64 (f_nan F64)) else
  isf <- next_bytes_is_float ;;
  if isf then (x <- float None ;; ret (num_of_float x))
  else
    backup <- get_cursor_m ;;
    try (integer None)
      (fun x => ret (num_of_int x))
      (fun ierr =>
         icur <- get_cursor_m ;;
         set_cursor_m backup ;;;
         let giveup := set_cursor_m icur ;;; fail ierr in
         try (float None)
           (fun x =>
              r <- src ;;
              if Nat.leb (blen r) (blen (fst (fst icur)))
              then ret (num_of_float x) else giveup)
           (fun _ => giveup)).

(** bool (parse.rs:521-529) *)
Definition parse_bool : M bool :=
  t <- consume_ident s_true ;;
  if t then ret true else
  f <- consume_ident s_false ;;
  if f then ret false else fail EExpectedBoolean.

(** char (parse.rs:531-549) *)
Definition parse_char : M char :=
  expect_char c_sq EExpectedChar ;;;
  c <- next_char ;;
  c <- (if c =? c_bs then
          e <- parse_escape false true ;;
          match e with EscAscii b => ret b | EscUtf8 c => ret c end
        else ret c) ;;
  expect_char c_sq EExpectedChar ;;;
  ret c.

(** ** Strings *)

(** the escape loop of escaped_byte_buf (parse.rs:1215-1249).  [i] is the
    number of bytes before the backslash, [acc] the bytes so far. *)
Fixpoint escaped_loop (fuel : nat) (binary : bool) (i : nat) (acc : bytes)
  : M (bytes * nat) :=
  match fuel with
  | O => oof
  | S f =>
      advance_bytes (i + 1) ;;;
      e <- parse_escape binary false ;;
      let acc := acc ++ match e with
                        | EscAscii b => [b]
                        | EscUtf8 c => enc_char c
                        end in
      r <- src ;;
      match find_char (fun c => (c =? c_dq) || (c =? c_bs)) r with
      | None => fail EExpectedStringEnd
      | Some (pre, post) =>
          let acc := acc ++ enc pre in
          match post with
          | c :: _ =>
              if c =? c_bs then escaped_loop f binary (blen pre) acc
              else ret (acc, (blen pre + 1)%nat)
          | [] => panic
          end
      end
  end.

(** escaped_byte_buf (parse.rs:1205-1256); allocated and borrowed results are
    not distinguished *)
Definition escaped_byte_buf (binary : bool) : M (bytes * nat) :=
  r <- src ;;
  match find_char (fun c => c =? c_dq) r with
  | None => fail EExpectedStringEnd
  | Some (pre, _) =>
      match find_char (fun c => c =? c_bs) pre with
      | Some (pre', _) => escaped_loop (S (length r)) binary (blen pre') (enc pre')
      | None => ret (enc pre, (blen pre + 1)%nat)
      end
  end.

(** raw_byte_buf (parse.rs:1258-1273) *)
Definition raw_byte_buf : M (bytes * nat) :=
  n <- next_chars_while_len (fun c => c =? c_hash) ;;
  r <- src ;;
  hashes <- of_slice (btake n r) ;;
  advance_bytes n ;;;
  expect_char c_dq EExpectedString ;;;
  r <- src ;;
  match find_str (c_dq :: hashes) r with
  | None => fail EExpectedStringEnd
  | Some (pre, _) => ret (enc pre, (blen pre + n + 1)%nat)
  end.

(** ParsedStr::try_from_bytes (parse.rs:1705-1712) followed by the advance of
    escaped_string / raw_string (parse.rs:1183-1203) *)
Definition finish_string (m : M (bytes * nat)) : M str :=
  p <- m ;;
  match from_utf8 (fst p) with
  | None => fail EUtf8Error
  | Some s => advance_bytes (snd p) ;;; ret s
  end.
Definition escaped_string : M str := finish_string (escaped_byte_buf false).
Definition raw_string : M str := finish_string raw_byte_buf.

(** string (parse.rs:1173-1181) *)
Definition parse_string : M str :=
  b <- consume_char c_dq ;;
  if b then escaped_string else
  r <- consume_char c_r ;;
  if r then raw_string else fail EExpectedString.

(** escaped_byte_string, raw_byte_string (parse.rs:1152-1171) *)
Definition finish_bytes (m : M (bytes * nat)) : M bytes :=
  p <- m ;; advance_bytes (snd p) ;;; ret (fst p).
Definition escaped_byte_string : M bytes := finish_bytes (escaped_byte_buf true).
Definition raw_byte_string : M bytes :=
  map_err (fun e => match e with EExpectedString => EExpectedByteString | _ => e end)
          (finish_bytes raw_byte_buf).

(** byte_string_no_base64 (parse.rs:1142-1150) *)
Definition byte_string_no_base64 : M bytes :=
  b <- consume_str s_bdq ;;
  if b then escaped_byte_string else
  r <- consume_str s_br ;;
  if r then raw_byte_string else fail EExpectedByteString.

(** byte_string (parse.rs:1095-1140) *)
Definition base64_error {A} (s : str) : M A :=
  match try_decode_base64 s with
  | Some bs => fail (EBase64Hint bs)
  | None => fail EExpectedByteString
  end.
Definition byte_string : M bytes :=
  b <- consume_char c_dq ;;
  if b then (s <- escaped_string ;; base64_error s) else
  r <- consume_char c_r ;;
  if r then (s <- raw_string ;; base64_error s) else
  byte_string_no_base64.

(** ** Struct look-ahead *)

(** StructType (parse.rs:1673-1680) *)
Inductive struct_type :=
  AnyTuple | EmptyTuple | NewtypeTuple | NonNewtypeTuple | Named | SUnit.

(** [let backup = cursor; if p().is_err() { set_cursor(backup) }]
    with the early return on unterminated literals (parse.rs:649-667) *)
Definition attempt {A} (stop : err -> bool) (m : M A) : M unit :=
  backup <- get_cursor_m ;;
  try m (fun _ => ret tt)
        (fun e => if stop e then fail e else set_cursor_m backup).
Definition unterminated (e : err) : bool :=
  match e with EExpectedStringEnd | EEof => true | _ => false end.

(** the [while braces > 0] loop (parse.rs:646-679); returns more_than_one *)
Fixpoint braces_loop (fuel : nat) (braces : nat) : M bool :=
  match braces with
  | O => ret false
  | S lower =>
      match fuel with
      | O => oof
      | S f =>
          skip_ws ;;;
          attempt (fun _ => false) parse_char ;;;
          attempt unterminated parse_string ;;;
          attempt unterminated byte_string_no_base64 ;;;
          c <- next_char ;;
          if (c =? c_lp) || (c =? c_lb) || (c =? c_lc) then braces_loop f (S braces)
          else if (c =? c_rp) || (c =? c_rb) || (c =? c_rc) then braces_loop f lower
          else if (c =? c_comma) && Nat.eqb braces 1 then
            skip_ws ;;;
            b <- check_char c_rp ;;
            ret (negb b)
          else braces_loop f braces
      end
  end.

(** check_struct_type_inner (parse.rs:596-686); [unit_mode] is
    NewtypeMode::NoParensMeanUnit, [precise] is TupleMode::DifferentiateNewtype *)
Definition check_struct_type_inner (unit_mode precise : bool) : M struct_type :=
  let investigate : M struct_type :=
    if negb precise then ret AnyTuple
    else
      r <- src ;;
      more <- braces_loop (S (length r)) 1 ;;
      ret (if more then NonNewtypeTuple else NewtypeTuple) in
  let body : M struct_type :=
    skip_ws ;;;
    rp <- check_char c_rp ;;
    if unit_mode && rp then ret EmptyTuple
    else
      id <- skip_identifier ;;
      match id with
      | None => investigate
      | Some _ =>
          skip_ws ;;;
          c <- peek_char ;;
          match c with
          | None => investigate
          | Some c =>
              if c =? c_colon then ret Named
              else if c =? c_comma then
                skip_next_char ;;;
                skip_ws ;;;
                b <- check_char c_rp ;;
                ret (if b then NewtypeTuple else NonNewtypeTuple)
              else if c =? c_rp then ret NewtypeTuple
              else investigate
          end
      end in
  if unit_mode then
    b <- consume_char c_lp ;;
    if b then body else ret SUnit
  else body.

(** check_struct_type (parse.rs:591-699): only [cursor] is rewound *)
Definition check_struct_type (unit_mode precise : bool) : M struct_type :=
  backup <- get_cursor_m ;;
  t <- check_struct_type_inner unit_mode precise ;;
  set_cursor_m backup ;;;
  ret t.

(** ** Attributes *)

(** the loop of extension_list (parse.rs:794-814) *)
Fixpoint extension_loop (fuel : nat) (acc : exts) : M exts :=
  match fuel with
  | O => oof
  | S f =>
      id <- identifier ;;
      match exts_from_ident id with
      | None => fail (ENoSuchExtension id)
      | Some e =>
          let acc := exts_or acc e in
          c <- comma ;;
          more <- check_ident_other_char 0 ;;
          if negb c && more then fail EExpectedComma
          else if negb c || negb more then ret acc
          else extension_loop f acc
      end
  end.

(** extension_list (parse.rs:791-817) *)
Definition extension_list : M exts :=
  r <- src ;; extension_loop (S (length r)) exts_empty.

(** ParsedAttribute (parse.rs:77-81) *)
Inductive attr := AttrNone | AttrExts (e : exts) | AttrIgnored.

(** attribute (parse.rs:745-788) *)
Definition attribute : M attr :=
  h <- check_char c_hash ;;
  if negb h then ret AttrNone
  else
    b <- consume_all [[c_hash]; [33]; [c_lb]] ;;
    if negb b then fail EExpectedAttribute
    else
      skip_ws ;;;
      en <- consume_ident s_enable ;;
      if en then
        skip_ws ;;;
        p <- consume_str [c_lp] ;;
        if negb p then fail EExpectedAttribute
        else
          skip_ws ;;;
          e <- extension_list ;;
          skip_ws ;;;
          c <- consume_all [[c_rp]; [c_rb]] ;;
          if c then ret (AttrExts e) else fail EExpectedAttributeEnd
      else
        ty <- consume_ident s_type ;;
        sc <- (if ty then ret true else consume_ident s_schema) ;;
        if sc then
          skip_ws ;;;
          q <- consume_str [c_eq] ;;
          if negb q then fail EExpectedAttribute
          else
            skip_ws ;;;
            parse_string ;;;
            skip_ws ;;;
            c <- consume_str [c_rb] ;;
            if c then ret AttrIgnored else fail EExpectedAttributeEnd
        else fail EExpectedAttribute.

(** the attribute loop of Parser::new (parse.rs:118-128) *)
Fixpoint attr_loop (fuel : nat) : M unit :=
  match fuel with
  | O => oof
  | S f =>
      a <- attribute ;;
      match a with
      | AttrNone => ret tt
      | AttrExts e =>
          modify (fun s => set_ext (exts_or (ext s) e) s) ;;;
          skip_ws ;;;
          attr_loop f
      | AttrIgnored => skip_ws ;;; attr_loop f
      end
  end.

(** Parser::new (parse.rs:99-131) on the initial state *)
Definition init_state (text : str) : st :=
  St text text (Some 0%nat) text exts_empty false None None.
Definition parser_new : M unit :=
  skip_ws ;;;
  r <- src ;;
  attr_loop (S (length r)).

End WithEnv.
