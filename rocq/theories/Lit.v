(** Specification of the literals, independent of the parser
    (docs/grammar.md: string, byte_string, char, integer, identifier). *)
From Coq Require Import NArith ZArith Bool List.
From Verif Require Import Base Facts Parse.
Import ListNotations.
Open Scope N_scope.
Open Scope list_scope.

(** ** Escapes *)

(** the simple escapes: the character after the backslash and its meaning *)
Inductive simple_escape : char -> N -> Prop :=
  | se_sq : simple_escape c_sq c_sq
  | se_dq : simple_escape c_dq c_dq
  | se_bs : simple_escape c_bs c_bs
  | se_n : simple_escape 110 10
  | se_r : simple_escape 114 13
  | se_t : simple_escape 116 9
  | se_0 : simple_escape 48 0.

(** the value of a hexadecimal digit *)
Inductive hex_digit : char -> N -> Prop :=
  | hd_num d : d < 10 -> hex_digit (48 + d) d
  | hd_low d : 10 <= d < 16 -> hex_digit (87 + d) d
  | hd_up d : 10 <= d < 16 -> hex_digit (55 + d) d.

(** positional value of hexadecimal digits, most significant first *)
Inductive hex_number : str -> N -> Prop :=
  | hn_nil : hex_number [] 0
  | hn_snoc s n c d : hex_number s n -> hex_digit c d -> hex_number (s ++ [c]) (n * 16 + d).

(** [\xHH\xHH..] for some bytes; the leading backslash is left out *)
Inductive hex_bytes : str -> bytes -> Prop :=
  | hb_one a da b db : hex_digit a da -> hex_digit b db ->
      hex_bytes [120; a; b] [da * 16 + db]
  | hb_more a da b db s bs : hex_digit a da -> hex_digit b db -> hex_bytes s bs ->
      hex_bytes (120 :: a :: b :: c_bs :: s) ((da * 16 + db) :: bs).

(** an escape sequence without its backslash, and the bytes it stands for;
    [binary] is true in byte strings *)
Inductive escape_seq (binary : bool) : str -> bytes -> Prop :=
  | es_simple c b : simple_escape c b -> escape_seq binary [c] [b]
  | es_byte s b : binary = true -> hex_bytes s [b] -> escape_seq binary s [b]
  | es_utf8 s c : binary = false -> is_scalar c = true -> hex_bytes s (enc_char c) ->
      escape_seq binary s (enc_char c)
  | es_unicode s c : (1 <= length s <= 6)%nat -> hex_number s c -> is_scalar c = true ->
      escape_seq binary (117 :: c_lc :: s ++ [c_rc]) (enc_char c).

(** ** Strings: the text between the quotes and its bytes *)
Inductive quoted (binary : bool) : str -> bytes -> Prop :=
  | q_nil : quoted binary [] []
  | q_plain c t bs : c <> c_dq -> c <> c_bs -> quoted binary t bs ->
      quoted binary (c :: t) (enc_char c ++ bs)
  | q_escape e eb t bs : escape_seq binary e eb -> quoted binary t bs ->
      quoted binary (c_bs :: e ++ t) (eb ++ bs).

(** the text between the quotes of a raw string with [n] hashes: it does not
    contain the closing sequence *)
Definition raw_body (n : nat) (s : str) : Prop :=
  forall a b, s <> a ++ c_dq :: repeat c_hash n ++ b.

Inductive string_lit : str -> str -> Prop :=
  | sl_quoted t s : wf_str s -> quoted false t (enc s) -> string_lit (c_dq :: t ++ [c_dq]) s
  | sl_raw n s : wf_str s -> raw_body n s ->
      string_lit (c_r :: repeat c_hash n ++ c_dq :: s ++ c_dq :: repeat c_hash n) s.

Inductive bytes_lit : str -> bytes -> Prop :=
  | bl_quoted t bs : quoted true t bs -> bytes_lit (c_b :: c_dq :: t ++ [c_dq]) bs
  | bl_raw n s : raw_body n s ->
      bytes_lit (c_b :: c_r :: repeat c_hash n ++ c_dq :: s ++ c_dq :: repeat c_hash n) (enc s).

Inductive char_lit : str -> char -> Prop :=
  | cl_plain c : c <> c_bs -> char_lit [c_sq; c; c_sq] c
  | cl_simple e c : simple_escape e c -> char_lit [c_sq; c_bs; e; c_sq] c
  | cl_hex a da b db : hex_digit a da -> hex_digit b db -> da * 16 + db < 128 ->
      char_lit [c_sq; c_bs; 120; a; b; c_sq] (da * 16 + db)
  | cl_unicode s c : (1 <= length s <= 6)%nat -> hex_number s c -> is_scalar c = true ->
      char_lit (c_sq :: c_bs :: 117 :: c_lc :: s ++ [c_rc; c_sq]) c.

(** ** Integers *)

(** digits of a base with interspersed underscores, and their value *)
Inductive int_number (base : Z) : str -> Z -> Prop :=
  | in_first c d : hex_digit c d -> (Z.of_N d < base)%Z -> int_number base [c] (Z.of_N d)
  | in_digit s z c d : int_number base s z -> hex_digit c d -> (Z.of_N d < base)%Z ->
      int_number base (s ++ [c]) (z * base + Z.of_N d)
  | in_under s z : int_number base s z -> int_number base (s ++ [c_us]) z.

Inductive base_prefix : str -> Z -> Prop :=
  | bp_dec : base_prefix [] 10
  | bp_bin : base_prefix s_0b 2
  | bp_oct : base_prefix s_0o 8
  | bp_hex : base_prefix s_0x 16.

Inductive sign : str -> bool -> Prop :=
  | sg_none : sign [] false
  | sg_plus : sign [c_plus] false
  | sg_minus : sign [c_minus] true.

Definition signed_value (neg : bool) (z : Z) : Z := if neg then (- z)%Z else z.

(** an unsuffixed integer literal *)
Inductive int_lit : str -> Z -> Prop :=
  | il s neg p base ds z : sign s neg -> base_prefix p base -> int_number base ds z ->
      int_lit (s ++ p ++ ds) (signed_value neg z).

(** ** Floats: the text of a number, and the special values; what a numeral
    means is up to Rust's own parser *)
Inductive fraction : str -> Prop :=
  | fr_none : fraction []
  | fr_some fs : fs <> [] -> forallb is_digit fs = true -> fraction (c_dot :: fs).
Inductive exponent : str -> Prop :=
  | ex_none : exponent []
  | ex_some e sg neg ds : e = 101 \/ e = 69 -> sign sg neg -> ds <> [] -> forallb is_digit ds = true ->
      exponent (e :: sg ++ ds).
Inductive numeral : str -> Prop :=
  | nm sg neg ds fr ex : sign sg neg -> ds <> [] -> forallb is_digit ds = true ->
      fraction fr -> exponent ex -> numeral (sg ++ ds ++ fr ++ ex).
Inductive special_float : str -> (fk -> N) -> Prop :=
  | sf_inf : special_float s_inf f_inf
  | sf_minf : special_float s_minf (fun k => f_inf k + f_signbit k)
  | sf_nan : special_float s_NaN f_nan
  | sf_mnan : special_float s_mNaN (fun k => f_nan k + f_signbit k).
Definition fk_suffix (k : fk) : str := match k with F32 => s_f32 | F64 => s_f64 end.

(** the text of a float of type [k], with or without suffix *)
Inductive float_lit {E : Env} (k : fk) : bool -> str -> N -> Prop :=
  | fl_num t b : numeral t -> f_read k t = Some b -> float_lit k false t b
  | fl_special t f : special_float t f -> float_lit k false t (f k)
  | fl_suffix t b : float_lit k false t b -> float_lit k true (t ++ fk_suffix k) b.

(** what may follow a float: nothing that could continue it, except a range *)
Definition float_end {E : Env} (r : str) : Prop :=
  starts_not (fun c => is_float_char c || xid_continue c) r \/ exists r', r = s_dotdot ++ r'.

(** ** Identifiers (unicode_ident being given) *)
Section Ident.
Context {E : Env}.
Inductive ident_lit : str -> str -> Prop :=
  | id_plain c r : is_ident_first_char c = true -> forallb xid_continue r = true ->
      ident_lit (c :: r) (c :: r)
  | id_raw n : n <> [] -> forallb is_ident_raw_char n = true -> ident_lit (c_r :: c_hash :: n) n.

(** what may follow an identifier *)
Definition ident_end (r : str) : Prop :=
  match r with
  | [] => True
  | c :: _ => is_ident_raw_char c = false /\ c <> c_hash /\ c <> c_dq /\ c <> c_sq
  end.
End Ident.

(** a byte literal *)
Inductive byte_lit : str -> N -> Prop :=
  | byl_plain c : c < 128 -> c <> c_bs -> byte_lit [c_b; c_sq; c; c_sq] c
  | byl_simple e b : simple_escape e b -> byte_lit [c_b; c_sq; c_bs; e; c_sq] b
  | byl_hex a da b db : hex_digit a da -> hex_digit b db -> byte_lit [c_b; c_sq; c_bs; 120; a; b; c_sq] (da * 16 + db).

(** the text of an integer of type [k] *)
Inductive int_text (k : ik) (z : Z) : str -> Prop :=
  | it_plain t : int_lit t z -> int_text k z t
  | it_suffix t : int_lit t z -> int_text k z (t ++ ik_suffix k)
  | it_byte t b : k = U8 -> byte_lit t b -> z = Z.of_N b -> int_text k z t.

(** ** What may be read as a float, and as any number *)

(** [u] spells the characters [v] of a float: only characters of a float, not
    two dots in a row, and an underscore only when a digit or an exponent mark
    has come before it since the last dot *)
Definition float_digit (c : char) : Prop := is_digit c = true \/ c = 101 \/ c = 69.
Definition spelled (u v : str) : Prop :=
  u <> [] /\ forallb is_float_char u = true /\ v = filter (fun c => negb (c =? c_us)) u /\
  (forall a b, u <> a ++ s_dotdot ++ b) /\
  (forall a b, u = a ++ c_us :: b -> exists a1 c a2, a = a1 ++ c :: a2 /\ float_digit c /\ ~ In c_dot a2).

Inductive float_word : str -> (fk -> N) -> Prop :=
  | fw_inf : float_word s_inf f_inf
  | fw_pinf : float_word s_pinf f_inf
  | fw_minf : float_word s_minf (fun k => f_inf k + f_signbit k)
  | fw_nan : float_word s_NaN f_nan
  | fw_pnan : float_word s_pNaN f_nan
  | fw_mnan : float_word s_mNaN (fun k => f_nan k + f_signbit k).

Section Number.
Context {E : Env}.
(** the float of type [t], or without a type (the shorter one if it is exact),
    that Rust's own parser makes of [v] *)
Definition float_of (t : option fk) (k : fk) (b : N) (v : str) : Prop :=
  match t with
  | Some k0 => k = k0 /\ f_read k v = Some b
  | None => exists b64, f_read F64 v = Some b64 /\
      ((b64 = f_widen (f_narrow b64) /\ k = F32 /\ b = f_narrow b64) \/
       (b64 <> f_widen (f_narrow b64) /\ k = F64 /\ b = b64))
  end.
Definition asked {A} (t : option A) (k : A) : Prop := forall k0, t = Some k0 -> k = k0.
Inductive float_text (t : option fk) (k : fk) (b : N) : str -> Prop :=
  | fx_word w f : float_word w f -> float_of t k b w -> float_text t k b w
  | fx_word_suffix w f : float_word w f -> b = f k -> asked t k -> float_text t k b (w ++ fk_suffix k)
  | fx_num u v : spelled u v -> float_of t k b v -> float_text t k b u
  | fx_suffix u v : spelled u v -> f_read k v = Some b -> asked t k -> float_text t k b (u ++ fk_suffix k).

Inductive num_lit : num -> str -> Prop :=
  | nl_word w f : (w, f) = (s_inf, f_inf) \/ (w, f) = (s_NaN, f_nan) -> num_lit (NFloat F32 (f F32)) w
  | nl_word_suffix k w f : (w, f) = (s_inf, f_inf) \/ (w, f) = (s_NaN, f_nan) -> num_lit (NFloat k (f k)) (w ++ fk_suffix k)
  | nl_float k b t : float_text None k b t -> num_lit (NFloat k b) t
  | nl_int k z t : in_range k z = true -> int_text k z t -> num_lit (NInt k z) t.
End Number.
